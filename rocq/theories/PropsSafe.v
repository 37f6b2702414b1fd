(** * PropsSafe.v - C85: no safe function of the crate has undefined behaviour or builds an
    ill-shaped value, whatever the element operations do. *)
From Coq Require Import List Arith Bool Lia.
From Verif Require Import Rust Iter Elem VectorM MatIterM MatrixM ArithM OpsM CmpM FmtM IterProofs SpecCommon Harness.
From Verif Require Import SpecSafe SafeProofs SafeLib SafeRest.
Import ListNotations.

Section Conv.
Context {S : Type} (D : Prop).
Lemma of_tri {A} (Q : A -> Prop) (m : M S A) : tri D any Q m -> no_ub D Q m.
Proof. intros H s. specialize (H s Logic.I). destruct (m s) as [[x| | |] s']; cbn; intuition. Qed.
Lemma to_tri {A} (Q : A -> Prop) (m : M S A) : no_ub D Q m -> tri D any Q m.
Proof. intros H s _. specialize (H s). destruct (m s) as [[x| | |] s']; cbn in *; unfold any; auto. Qed.
Lemma of_mut {X A} (J : X -> Prop) (Q : A -> Prop) (m : M (X * S) A) : tri D (pI J any) Q m -> no_ub_mut D J Q m.
Proof.
  intros H x s HJ. specialize (H (x, s) (Logic.conj HJ Logic.I)). destruct (m (x, s)) as [[y| | |] [x' s']]; auto.
  - destruct H as [[H1 _] H2]. now split.
  - apply H.
Qed.
Lemma to_mut {X A} (J : X -> Prop) (Q : A -> Prop) (m : M (X * S) A) : no_ub_mut D J Q m -> tri D (pI J any) Q m.
Proof.
  intros H [x s] [HJ _]. specialize (H x s HJ). destruct (m (x, s)) as [[y| | |] [x' s']]; auto.
  - destruct H. repeat split; auto.
  - repeat split; auto.
Qed.
Lemma all_dsafe {A} (d : ety S A) : dsafe any d.
Proof. intros x s _. exact Logic.I. Qed.
Lemma to_ops {A} (P : A -> Prop) (o : ops S A) : ops_no_ub D P o -> ops_ok D any P o.
Proof. intros (H0 & H1 & H2 & H3 & H4 & H5 & H6 & H7). split; auto; intros; apply to_tri; auto. Qed.
Lemma to_op1 {A B} (P : A -> Prop) (Q : B -> Prop) (f : A -> M S B) : op1_no_ub D P Q f -> forall x, P x -> tri D any Q (f x).
Proof. intros H x Hx. now apply to_tri, H. Qed.
Lemma to_op2 {A B C} (P : A -> Prop) (Q : B -> Prop) (R : C -> Prop) (f : A -> B -> M S C) :
  op2_no_ub D P Q R f -> forall x y, P x -> Q y -> tri D any R (f x y).
Proof. intros H x y Hx Hy. now apply to_tri, H. Qed.
Lemma to_assign {A B} (P : A -> Prop) (Q : B -> Prop) (f : B -> M (A * S) unit) :
  assign_no_ub D P Q f -> forall y, Q y -> tri D (pI P any) any (f y).
Proof. intros H y Hy. now apply to_mut, H. Qed.
Lemma to_iter {A} (P : A -> Prop) (it : iter S A) : iter_no_ub D P it -> isafe D any True P 0 it.
Proof.
  intros (J & H0 & HN & HD). exists (fun _ st => J st). split; [exact H0|]. intros k st HJ.
  split; [now apply to_tri, HD|]. intros s _. specialize (HN st s HJ).
  destruct (i_next it (st, s)) as [[[x|]| | |] [st' s']]; auto.
  - destruct HN as [H1 H2]. repeat split; auto. exists 0. auto.
  - destruct HN as [H1 _]. split; [exact Logic.I|now apply to_tri, HD].
  - split; [exact Logic.I|now apply to_tri, HD].
Qed.
Lemma of_history {X A} (J : X -> Prop) (Q : A -> Prop) (step : qop -> M (X * S) (qout A)) x0 :
  (forall op, tri D (pI J any) (out_ok Q) (step op)) -> J x0 -> history_no_ub D Q step x0.
Proof.
  intros H HJ ops s. pose proof (t_history D any J Q step ops H (x0, s) (Logic.conj HJ Logic.I)) as G.
  destruct (run_history step ops (x0, s)) as [[y| | |] xs]; cbn; auto. apply G.
Qed.
End Conv.

(** ** C85: collecting any iterator, and generating *)
Theorem C85_collect : forall (S T : Type) (D : Prop) (P : T -> Prop) (c : cfg) (d : ety S T) (n : nat) (it : iter S T),
  D ->   (* an endless iterator is drained for ever *)
  iter_no_ub D P it -> no_ub D (vec n P) (from_iter c d n it).
Proof.
  intros S T D P c d n it HD Hit. apply of_tri.
  apply (tri_from_iter D any True P c d n 0 it (fun _ => HD) (all_dsafe d)); [now apply to_iter|now left].
Qed.
Print Assumptions C85_collect.
Theorem C85_generate : forall (S T : Type) (D : Prop) (P : T -> Prop) (c : cfg) (d : ety S T),
  (forall n f, (forall i, i < n -> no_ub D P (f i)) -> no_ub D (vec n P) (vgenerate c d n f)) /\
  (forall row col f, (forall i j, i < row -> j < col -> no_ub D P (f (i, j))) ->
     no_ub D (mat row col P) (mgenerate c d row col f)) /\
  (forall row col dflt, no_ub D P dflt -> no_ub D (mat row col P) (mdefault c d dflt row col)) /\
  (forall row col m, row < W c -> mat row col P m -> no_ub D (mat row col P) (mnew c d row m)) /\
  (forall o row col k elems, k < W c -> P (o_zero o) -> vec k P elems ->
     no_ub D (mat row col P) (mdiag c d o row col k elems)) /\
  (forall o n, P (o_zero o) -> P (o_one o) -> no_ub D (mat n n P) (midentity c d o n)).
Proof.
  intros S T D P c d. pose proof (all_dsafe d) as Hd. repeat split; intros; apply of_tri.
  - apply t_vgenerate; auto. intros; now apply to_tri, H.
  - apply t_mgenerate; auto. intros; now apply to_tri, H.
  - apply t_mdefault; auto. now apply to_tri.
  - now apply t_mnew.
  - now apply t_mdiag.
  - apply t_mgenerate; auto. intros i j _ _. destruct (i =? j); now apply tri_ret.
Qed.
Print Assumptions C85_generate.

(** ** C85: element access.  (The static index [U0] on an empty shape is C13.) *)
Theorem C85_index : forall (S T : Type) (D : Prop) (P : T -> Prop) (c : cfg) row col (m : list (list T)),
  mat row col P m ->
  (forall ij, @no_ub S _ D P (mindex m ij)) /\
  (forall ij x, P x -> @no_ub S _ D (mat row col P) (mindex_set m ij x)) /\
  (forall i j, i < row -> j < col -> @no_ub S _ D P (mindex_static c row col m (i, j))) /\
  (forall i j x, i < row -> j < col -> P x -> @no_ub S _ D (mat row col P) (mindex_static_set c row col m (i, j) x)).
Proof.
  intros S T D P c row col m Hm. repeat split; intros; apply of_tri.
  - now apply (t_mindex D any P row col).
  - now apply t_mindex_set.
  - now apply t_static.
  - now apply t_static_set.
Qed.
Print Assumptions C85_index.

Theorem C85_vector_index : forall (S T : Type) (D : Prop) (P : T -> Prop) (c : cfg) n (v : list T),
  vec n P v ->
  (forall i, @no_ub S _ D P (vindex v i)) /\
  (forall i x, P x -> @no_ub S _ D (vec n P) (vindex_set v i x)) /\
  (forall i, i < n -> @no_ub S _ D P (vindex_static c n v i)) /\
  (forall i x, i < n -> P x -> @no_ub S _ D (vec n P) (vindex_static_set c n v i x)).
Proof.
  intros S T D P c n v Hv. repeat match goal with |- _ /\ _ => split end; intros; apply of_tri.
  - apply tri_slice_index, Hv.
  - now apply tri_slice_assign.
  - destruct i; now apply tri_vget.
  - destruct i; now apply tri_vset.
Qed.
Print Assumptions C85_vector_index.

(** ** C85: element-wise operators, the four forms, on vectors and matrices of any types *)
Theorem C85_operators : forall (S A B C : Type) (D : Prop) (PA : A -> Prop) (PB : B -> Prop) (PC : C -> Prop) (c : cfg)
    (da : ety S A) (db : ety S B) (dc : ety S C) (op : A -> B -> M S C),
  op2_no_ub D PA PB PC op ->
  (forall n a b, n < W c -> vec n PA a -> vec n PB b ->
     no_ub D (vec n PC) (vzip_vv c da db dc n op a b) /\
     no_ub D (vec n PC) (vzip_vr c da dc n op a b) /\
     no_ub D (vec n PC) (vzip_rv c db dc n op a b) /\
     no_ub D (vec n PC) (vzip_rr c dc n op a b)) /\
  (forall row col a b, row < W c -> col < W c -> mat row col PA a -> mat row col PB b ->
     no_ub D (mat row col PC) (mzip_vv c da db dc row col op a b) /\
     no_ub D (mat row col PC) (mzip_vr c da dc row col op a b) /\
     no_ub D (mat row col PC) (mzip_rv c db dc row col op a b) /\
     no_ub D (mat row col PC) (mzip_rr c dc row col op a b)) /\
  (forall n cl a u, n < W c -> op1_no_ub D PB PB cl -> vec n PA a -> PB u ->
     no_ub D (vec n PC) (vscale c da dc n op cl a u)).
Proof.
  intros S A B C D PA PB PC c da db dc op Hop0. pose proof (to_op2 D PA PB PC op Hop0) as Hop.
  pose proof (all_dsafe da) as Ha. pose proof (all_dsafe db) as Hb. pose proof (all_dsafe dc) as Hc.
  split; [|split].
  - intros n a b HW Va Vb. repeat split; apply of_tri.
    + now apply (t_vzip_vv D any c PA PB).
    + now apply (t_vzip_vr D any c PA PB).
    + now apply (t_vzip_rv D any c PA PB).
    + now apply (t_vzip_rr D any c PA PB).
  - intros row col a b H1 H2 Va Vb. repeat split; apply of_tri.
    + now apply (t_mzip_vv D any c PA PB).
    + now apply (t_mzip_vr D any c PA PB).
    + now apply (t_mzip_rv D any c PA PB).
    + now apply (t_mzip_rr D any c PA PB).
  - intros n cl a u HW Hcl Va Hu. apply of_tri. apply (t_vscale D any c PA PB); auto. now apply to_op1.
Qed.
Print Assumptions C85_operators.

(** ** C85: unary operators, closures, clones, iteration by predicates *)
Theorem C85_maps : forall (S A B : Type) (D : Prop) (PA : A -> Prop) (PB : B -> Prop) (c : cfg) (da : ety S A) (db : ety S B),
  (forall n neg v, n < W c -> op1_no_ub D PA PB neg -> vec n PA v -> no_ub D (vec n PB) (vneg c da db n neg v)) /\
  (forall row col neg m, row < W c -> col < W c -> op1_no_ub D PA PB neg -> mat row col PA m ->
     no_ub D (mat row col PB) (mneg c da db row col neg m)) /\
  (forall row col f m, row < W c -> col < W c -> mat row col PA m ->
     (forall i j x, i < row -> j < col -> PA x -> no_ub D PB (f (i, j) x)) ->
     no_ub D (mat row col PB) (mmap c da db row col f m)) /\
  (forall row col pred m, mat row col PA m ->
     (forall i j x, i < row -> j < col -> PA x -> @no_ub S _ D anything (pred (i, j) x)) ->
     no_ub D anything (mall row col pred m) /\ no_ub D anything (many row col pred m)) /\
  (forall n cl v, op1_no_ub D PA PA cl -> vec n PA v -> no_ub D (vec n PA) (vclone c da n cl v)) /\
  (forall row col cl m, op1_no_ub D PA PA cl -> mat row col PA m -> no_ub D (mat row col PA) (mclone c da cl row col m)) /\
  (forall row col cl m, col < W c -> op1_no_ub D PA PA cl -> mat row col PA m ->
     no_ub D (mat col row PA) (mtransposed c da cl row col m)) /\
  (forall n cl, n < W c -> op1_no_ub D PA PA cl -> no_ub_mut D (mat n n PA) anything (mtranspose c da cl n)).
Proof.
  intros S A B D PA PB c da db. pose proof (all_dsafe da) as Ha. pose proof (all_dsafe db) as Hb.
  repeat match goal with |- _ /\ _ => split end; intros.
  - apply of_tri, (t_vneg D any c PA PB); auto. now apply to_op1.
  - apply of_tri, (t_mneg D any c PA PB); auto. now apply to_op1.
  - apply of_tri, (t_mmap D any c PA PB); auto. intros; now apply to_tri, H2.
  - split; apply of_tri; [apply (t_mall D any PA)|apply (t_many D any PA)]; auto; intros; now apply to_tri, H0.
  - apply of_tri, (t_vclone D any c PA); auto. now apply to_op1.
  - apply of_tri. apply (t_vclone D any c (vec col PA)); [now apply dsafe_vec| |exact H0].
    intros r Hr. apply (t_vclone D any c PA); auto. now apply to_op1.
  - apply of_tri, t_mtransposed; auto. now apply to_op1.
  - apply of_mut, t_mtranspose; auto. now apply to_op1.
Qed.
Print Assumptions C85_maps.

(** ** C85: in-place operators: the receiver stays a well-shaped value even when one panics *)
Theorem C85_assign : forall (S A B : Type) (D : Prop) (PA : A -> Prop) (PB : B -> Prop) (c : cfg) (db : ety S B)
    (op : B -> M (A * S) unit), assign_no_ub D PA PB op ->
  (forall n rhs, n < W c -> vec n PB rhs -> no_ub_mut D (vec n PA) anything (vop_assign c db n op rhs)) /\
  (forall row col rhs, row < W c -> col < W c -> mat row col PB rhs ->
     no_ub_mut D (mat row col PA) anything (mop_assign c db row col op rhs)) /\
  (forall n cl u, op1_no_ub D PB PB cl -> PB u -> no_ub_mut D (vec n PA) anything (vscale_assign op cl u)).
Proof.
  intros S A B D PA PB c db op Hop0. pose proof (to_assign D PA PB op Hop0) as Hop. pose proof (all_dsafe db) as Hb.
  repeat split; intros; apply of_mut.
  - now apply (t_vop_assign D any c PA PB).
  - now apply (t_mop_assign D any c PA PB).
  - apply (t_vscale_assign D any PA PB); auto. now apply to_op1.
Qed.
Print Assumptions C85_assign.

(** ** C85: arithmetic on one element type *)
Theorem C85_arithmetic : forall (S T : Type) (D : Prop) (P : T -> Prop) (c : cfg) (d : ety S T) (o : ops S T),
  ops_no_ub D P o ->
  (forall n a b, vec n P a -> vec n P b -> no_ub D P (vdot o n a b)) /\
  (forall n v, vec n P v -> no_ub D P (vsum o n v) /\ no_ub D anything (vis_zero o n v)) /\
  (forall a b, vec 3 P a -> vec 3 P b -> no_ub D (vec 3 P) (vcross c o a b)) /\
  (forall row col m, mat row col P m -> no_ub D P (msum o row col m) /\ no_ub D anything (mis_zero o row col m)) /\
  (forall row col op m x, row < W c -> col < W c -> op2_no_ub D P P P op -> mat row col P m -> P x ->
     no_ub D (mat row col P) (mscale c d row col op (o_clone o) m x) /\
     no_ub D (mat row col P) (mscale_ref c d row col op m x)) /\
  (forall row col op x, assign_no_ub D P P op -> P x ->
     no_ub_mut D (mat row col P) anything (mscale_assign op (o_clone o) x)) /\
  (forall row col z, row < W c -> col < W c -> forall dz : ety S (complex T),
     mat row col (fun w => P (re w) /\ P (im w)) z ->
     no_ub D (mat row col (fun w => P (re w) /\ P (im w))) (mconjugate c dz o row col z)).
Proof.
  intros S T D P c d o HO. pose proof (to_ops D P o HO) as K. pose proof (all_dsafe d) as Hd.
  assert (Hcl : forall x, P x -> tri D any P (o_clone o x)) by apply K.
  repeat match goal with |- _ /\ _ => split end; intros.
  - now apply of_tri, t_vdot.
  - split; apply of_tri; [now apply t_vsum|now apply (t_vis_zero D any P)].
  - now apply of_tri, t_vcross.
  - split; apply of_tri; [now apply t_msum|now apply (t_mis_zero D any P)].
  - split; apply of_tri; [apply t_mscale|apply t_mscale_ref]; auto; now apply to_op2.
  - apply of_mut, t_mscale_assign; auto. now apply to_assign.
  - apply of_tri, (t_mconjugate D any c P); auto. apply all_dsafe.
Qed.
Print Assumptions C85_arithmetic.
Theorem C85_product : forall (S T : Type) (D : Prop) (P : T -> Prop) (c : cfg) (d : ety S T) (o : ops S T),
  ops_no_ub D P o ->
  (forall lr n rc a b, lr < W c -> n < W c -> rc < W c -> mat lr n P a -> mat n rc P b ->
     no_ub D (mat lr rc P) (mmul_vv c d o lr n rc a b) /\
     no_ub D (mat lr rc P) (mmul_vr c d o lr n rc a b) /\
     no_ub D (mat lr rc P) (mmul_rv c d o lr n rc a b) /\
     no_ub D (mat lr rc P) (mmul_rr c d o lr n rc a b)) /\
  (forall n b, n < W c -> mat n n P b -> no_ub_mut D (mat n n P) anything (mmul_assign c d o n b)) /\
  (forall row col m v, row < W c -> col < W c -> mat row col P m -> vec col P v ->
     no_ub D (vec row P) (mmulv c d o row col m v) /\ no_ub D (vec row P) (mmulv_ref c d o row col m v)) /\
  (forall n m e, n < W c -> mat n n P m -> no_ub D (mat n n P) (mpow c d o n m e)).
Proof.
  intros S T D P c d o HO. pose proof (to_ops D P o HO) as K. pose proof (all_dsafe d) as Hd.
  repeat match goal with |- _ /\ _ => split end; intros.
  - repeat split; apply of_tri; [now apply t_mmul_vv|now apply t_mmul_vr|now apply t_mmul_rv|now apply t_mmul_rr].
  - now apply of_mut, t_mmul_assign.
  - split; apply of_tri; [now apply t_mmulv|now apply t_mmulv_ref].
  - now apply of_tri, t_mpow.
Qed.
Print Assumptions C85_product.

(** ** C85: determinant, cofactor, inverse, norm *)
Theorem C85_determinant : forall (S T : Type) (D : Prop) (P : T -> Prop) (c : cfg) (d : ety S T) (o : ops S T) n m,
  ops_no_ub D P o -> 0 < n -> n < W c -> mat n n P m ->
  no_ub D P (det c d o n m) /\
  (1 < n -> forall ij, no_ub D P (cofactor c d o n m ij)) /\
  no_ub D (if_some (mat n n P)) (inverse c d o n m).
Proof.
  intros S T D P c d o n m HO H0 HW Hm. pose proof (to_ops D P o HO) as K. pose proof (all_dsafe d) as Hd.
  repeat match goal with |- _ /\ _ => split end; intros; apply of_tri.
  - now apply t_det.
  - now apply t_cofactor.
  - now apply (t_inverse D any c P).
Qed.
Print Assumptions C85_determinant.
Theorem C85_norm : forall (S T : Type) (D : Prop) (P : T -> Prop) (c : cfg) (d : ety S T) (o : fops S T) n v,
  ops_no_ub D P (f_ops o) -> op1_no_ub D P P (f_powi2 o) -> op1_no_ub D P P (f_sqrt o) -> n < W c -> vec n P v ->
  no_ub D P (vnorm o n v) /\ no_ub D (vec n P) (vnormalized c d o n v).
Proof.
  intros S T D P c d o n v HO H2 Hs HW Hv. pose proof (to_ops D P _ HO) as K. pose proof (all_dsafe d) as Hd.
  split; apply of_tri; [apply t_vnorm|apply t_vnormalized]; auto; now apply to_op1.
Qed.
Print Assumptions C85_norm.

(** ** C85: comparisons, also lawless ones *)
Theorem C85_ordering : forall (S T : Type) (D : Prop) (P : T -> Prop) (c : cfg) (d : ety S T)
    (clone : T -> M S T) (cmp : T -> T -> M S comparison) n,
  op1_no_ub D P P clone -> op2_no_ub D P P anything cmp ->
  (forall v, vec n P v ->
     no_ub D P (vmax_m clone cmp n v) /\ no_ub D P (vmin_m clone cmp n v) /\
     no_ub D P (vmax_by clone cmp n v) /\ no_ub D P (vmin_by clone cmp n v)) /\
  (forall m, mat n n P m ->
     no_ub D P (mmax_m d clone cmp n m) /\ no_ub D P (mmin_m d clone cmp n m) /\
     no_ub D P (mmax_by clone cmp n m) /\ no_ub D P (mmin_by clone cmp n m)).
Proof.
  intros S T D P c d clone cmp n Hcl0 Hco0. pose proof (all_dsafe d) as Hd.
  pose proof (to_op1 D P P clone Hcl0) as Hcl. pose proof (to_op2 D P P anything cmp Hco0) as Hco.
  split; intros; repeat split; apply of_tri.
  - now apply t_vselect.
  - now apply t_vselect.
  - now apply t_max_by.
  - apply t_max_by; auto.
  - now apply t_mselect.
  - now apply t_mselect.
  - now apply t_mmax_by.
  - apply t_mmax_by; auto.
Qed.
Print Assumptions C85_ordering.
Theorem C85_clamp : forall (S T : Type) (D : Prop) (P : T -> Prop) (c : cfg) (d : ety S T)
    (clone : T -> M S T) (cmp : T -> T -> M S comparison) mn mx,
  op1_no_ub D P P clone -> op2_no_ub D P P anything cmp -> P mn -> P mx ->
  (forall n v, vec n P v -> no_ub D (vec n P) (vclamped_m c d clone cmp n v mn mx)) /\
  (forall row col m, mat row col P m -> no_ub D (mat row col P) (mclamped_m c d clone cmp row col m mn mx)) /\
  (forall n, no_ub_mut D (vec n P) anything (vclamp_m d clone cmp mn mx)) /\
  (forall row col, no_ub_mut D (mat row col P) anything (mclamp_m d clone cmp mn mx)).
Proof.
  intros S T D P c d clone cmp mn mx Hcl0 Hco0 H1 H2. pose proof (all_dsafe d) as Hd.
  pose proof (to_op1 D P P clone Hcl0) as Hcl. pose proof (to_op2 D P P anything cmp Hco0) as Hco.
  repeat match goal with |- _ /\ _ => split end; intros.
  - now apply of_tri, t_vclamped.
  - now apply of_tri, t_mclamped.
  - now apply of_mut, t_vclamp.
  - now apply of_mut, t_mclamp.
Qed.
Print Assumptions C85_clamp.
Theorem C85_equality : forall (S T : Type) (D : Prop) (P : T -> Prop) (c : cfg) (peq : T -> T -> M S bool),
  op2_no_ub D P P anything peq ->
  (forall n k a b, vec n P a -> vec k P b -> no_ub D anything (veq_m peq a b)) /\
  (forall row col a b, mat row col P a -> mat row col P b -> no_ub D anything (meq_m peq a b)) /\
  (forall row col a b, row < W c -> mat row col P a -> mat row col P b -> no_ub D anything (mapprox_eq c peq row col a b)).
Proof.
  intros S T D P c peq He0. pose proof (to_op2 D P P anything peq He0) as He. repeat split; intros; apply of_tri.
  - now apply (t_veq D any P P peq n k).
  - now apply (t_meq D any P peq row col row col).
  - now apply (t_mapprox D any c P).
Qed.
Print Assumptions C85_equality.

(** ** C85: formatting, with a writer and element formatters that may fail, panic or have effects *)
Theorem C85_format : forall (S T : Type) (D : Prop) (P : T -> Prop) (c : cfg) (w : str -> M S bool) (slen : str -> nat),
  op1_no_ub D anything anything w ->
  (forall dfmt n v, op1_no_ub D P anything dfmt -> vec n P v -> no_ub D anything (vdebug w dfmt v)) /\
  (forall dfmt row col m, op1_no_ub D P anything dfmt -> mat row col P m -> no_ub D anything (mdebug c w dfmt row m)) /\
  (forall tofmt row col m, op1_no_ub D P anything tofmt -> row < W c -> col < W c -> mat row col P m ->
     no_ub D anything (mdisplay c w slen tofmt row col m)).
Proof.
  intros S T D P c w slen Hw0. assert (Hw : forall t, tri D any any (w t)) by (intros t; now apply to_tri, Hw0).
  repeat split; intros; apply of_tri.
  - apply (t_vdebug D any w Hw P dfmt n); auto. now apply to_op1.
  - apply (t_mdebug D any c w Hw P dfmt row col); auto. now apply to_op1.
  - apply (t_mdisplay D P c w tofmt Hw); auto. now apply to_op1.
Qed.
Print Assumptions C85_format.

(** ** C85: the iterators of a matrix, under any history of calls: after exhaustion, from both
    ends, with [nth] past the end.  (The owning iterator of a vector is C07, C08.) *)
Theorem C85_iterators : forall (S T : Type) (D : Prop) (P : T -> Prop) (c : cfg) (d : ety S T) (clone : T -> M S T) row col m,
  op1_no_ub D P P clone -> mat row col P m ->
  @history_no_ub S _ _ D (vec col P) (rr_step c row m) (rr_new row) /\
  history_no_ub D (vec col P) (ri_step c row col m d clone) (ri_new row) /\
  history_no_ub D (vec row P) (ci_step c row col m d clone) (ci_new col) /\
  (* the columns handed out by [cols_iter_ref] can themselves be used in any way *)
  @history_no_ub S _ _ D (@history_no_ub S _ _ D P (cin_step c row col m)) (cr_step c row col) (cr_new col).
Proof.
  intros S T D P c d clone row col m Hcl0 Hm. pose proof (to_op1 D P P clone Hcl0) as Hcl.
  pose proof (all_dsafe d) as Hd. repeat match goal with |- _ /\ _ => split end.
  - apply (of_history D (inside row)); [|apply le_n]. intros op. now apply t_rr_step.
  - apply (of_history D (inside row)); [|apply le_n]. intros op. now apply t_ri_step.
  - apply (of_history D (inside col)); [|apply le_n]. intros op. now apply t_ci_step.
  - apply (of_history D (inside col)); [|apply le_n]. intros op.
    eapply tri_weak; [exact (t_cr_step D any c row col op)|].
    intros [[p|]|k|lo hi] Ho; try exact Logic.I. cbn in *.
    apply (of_history D (incol row col)); [|exact Ho]. intros op'. now apply t_cin_step.
Qed.
Print Assumptions C85_iterators.

(** ** C85, example: bytes; the world counts the operations, every one may panic: division by
    zero, subtraction below zero, and any operation once the counter has reached 1000.  The
    "elements" are natural numbers below 256, so [P] is a real condition. *)
Definition byte_op (f : nat -> nat -> option nat) (x y : nat) : M nat nat :=
  fun k => if 1000 <=? k then (Panic, k)
           else match f x y with Some z => (Ok (Nat.modulo z 256), k + 1) | None => (Panic, k + 1) end.
Definition byte_ops : ops nat nat := {|
  o_zero := 0; o_one := 1;
  o_add := byte_op (fun x y => Some (x + y));
  o_sub := byte_op (fun x y => if y <=? x then Some (x - y) else None);
  o_mul := byte_op (fun x y => Some (x * y));
  o_div := byte_op (fun x y => if y =? 0 then None else Some (x / y));
  o_neg := fun x => byte_op (fun x _ => Some (256 - x)) x x;
  o_is_zero := Nat.eqb 0; o_clone := fun x => byte_op (fun x _ => Some x) x x |}.
Lemma byte_op_safe f x y : no_ub False (fun b => b < 256) (byte_op f x y).
Proof.
  intros k. unfold byte_op. destruct (1000 <=? k); [exact Logic.I|]. destruct (f x y); [|exact Logic.I].
  cbn. apply Nat.mod_upper_bound. lia.
Qed.
Lemma byte_ops_safe : ops_no_ub False (fun b => b < 256) byte_ops.
Proof.
  split; [cbn; lia|]. split; [cbn; lia|].
  repeat match goal with |- _ /\ _ => split end; intros; apply byte_op_safe.
Qed.
Example C85_ex :
  mat 3 3 (fun b => b < 256) [[2; 0; 1]; [1; 3; 2]; [1; 1; 4]] /\
  fst (det dbg log_ety (Ops 0 1 (fun x y => ret (x + y)) (fun x y => ret (x - y)) (fun x y => ret (x * y))
         (fun x y => ret (x / y)) (fun x => ret x) (Nat.eqb 0) (fun x => ret x)) 3 [[2; 0; 1]; [1; 3; 2]; [1; 1; 4]] [])
  = Ok 18 /\
  fst (det dbg (Ety (fun _ k => k) false) byte_ops 3 [[2; 0; 1]; [1; 3; 2]; [1; 1; 4]] 0) = Ok 18 /\
  fst (det dbg (Ety (fun _ k => k) false) byte_ops 3 [[2; 0; 1]; [1; 3; 2]; [1; 1; 4]] 990) = Panic /\
  no_ub False (fun b => b < 256)
    (det dbg (Ety (fun _ k => k) false) byte_ops 3 [[2; 0; 1]; [1; 3; 2]; [1; 1; 4]]).
Proof.
  assert (Hm : mat 3 3 (fun b => b < 256) [[2; 0; 1]; [1; 3; 2]; [1; 1; 4]]).
  { split; [reflexivity|]. repeat (apply Forall_cons; [split; [reflexivity|repeat (apply Forall_cons; [lia|]); apply Forall_nil]|]). apply Forall_nil. }
  split; [exact Hm|]. split; [vm_compute; reflexivity|]. split; [vm_compute; reflexivity|]. split; [vm_compute; reflexivity|].
  apply (C85_determinant nat nat False _ dbg _ byte_ops 3 _ byte_ops_safe); [lia|exact (Nat.lt_trans 3 32 _ ltac:(lia) (ChunkProofs.W_gt dbg))|exact Hm].
Qed.
