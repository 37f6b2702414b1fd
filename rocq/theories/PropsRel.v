(** * PropsRel.v - C86: the crate touches elements only through their operations, so any
    correspondence between two element types that the operations respect is respected by every
    function of the crate. *)
From Coq Require Import List Arith Bool Lia ZArith.
From Verif Require Import Rust Iter Elem VectorM MatIterM MatrixM ArithM OpsM CmpM FmtM SpecCommon Harness.
From Verif Require Import SpecRel RelProofs RelLib RelMat RelFmt.
Import ListNotations.

Ltac conjs := repeat match goal with |- _ /\ _ => split end.

(** ** C86: building values *)
Theorem C86_build : forall (S1 S2 A B : Type) (RS : S1 -> S2 -> Prop) (R : A -> B -> Prop) (c : cfg)
    (d1 : ety S1 A) (d2 : ety S2 B), ety_alike RS R d1 d2 ->
  (forall n it1 it2, iter_alike RS R it1 it2 -> alike RS (vec_rel R) (from_iter c d1 n it1) (from_iter c d2 n it2)) /\
  (forall n f g, (forall i, alike RS R (f i) (g i)) -> alike RS (vec_rel R) (vgenerate c d1 n f) (vgenerate c d2 n g)) /\
  (forall row col f g, (forall ij, alike RS R (f ij) (g ij)) ->
     alike RS (mat_rel R) (mgenerate c d1 row col f) (mgenerate c d2 row col g)) /\
  (forall row col f g, alike RS R f g -> alike RS (mat_rel R) (mdefault c d1 f row col) (mdefault c d2 g row col)) /\
  (forall row m1 m2, mat_rel R m1 m2 -> alike RS (mat_rel R) (mnew c d1 row m1) (mnew c d2 row m2)) /\
  (forall row col v1 v2, vec_rel R v1 v2 ->
     alike RS (mat_rel R) (mfrom_vector c d1 row col v1) (mfrom_vector c d2 row col v2)) /\
  (forall o1 o2 row col k e1 e2, ring_alike RS R o1 o2 -> vec_rel R e1 e2 ->
     alike RS (mat_rel R) (mdiag c d1 o1 row col k e1) (mdiag c d2 o2 row col k e2)) /\
  (forall o1 o2 n, ring_alike RS R o1 o2 -> alike RS (mat_rel R) (midentity c d1 o1 n) (midentity c d2 o2 n)).
Proof.
  intros S1 S2 A B RS R c d1 d2 Hd. conjs; intros.
  - now apply r_from_iter.
  - now apply r_vgenerate.
  - now apply r_mgenerate.
  - now apply r_mdefault.
  - now apply r_mnew.
  - now apply r_mfrom_vector.
  - now apply r_mdiag.
  - destruct H. apply r_mgenerate; [exact Hd|]. intros [i j]. destruct (i =? j); now apply r_ret.
Qed.
Print Assumptions C86_build.

(** ** C86: element access, including the accesses outside the bounds *)
Theorem C86_access : forall (S1 S2 A B : Type) (RS : S1 -> S2 -> Prop) (R : A -> B -> Prop) (c : cfg),
  (forall v w i, vec_rel R v w -> alike RS R (vindex v i) (vindex w i)) /\
  (forall v w i x y, vec_rel R v w -> R x y -> alike RS (vec_rel R) (vindex_set v i x) (vindex_set w i y)) /\
  (forall n v w i, vec_rel R v w -> alike RS R (vindex_static c n v i) (vindex_static c n w i)) /\
  (forall n v w i, vec_rel R v w -> alike RS R (vget_unchecked c n v i) (vget_unchecked c n w i)) /\
  (forall n v w i x y, vec_rel R v w -> R x y -> alike RS (vec_rel R) (vindex_static_set c n v i x) (vindex_static_set c n w i y)) /\
  (forall m1 m2 ij, mat_rel R m1 m2 -> alike RS R (mindex m1 ij) (mindex m2 ij)) /\
  (forall m1 m2 ij x y, mat_rel R m1 m2 -> R x y -> alike RS (mat_rel R) (mindex_set m1 ij x) (mindex_set m2 ij y)) /\
  (forall row col m1 m2 ij, mat_rel R m1 m2 -> alike RS R (mindex_static c row col m1 ij) (mindex_static c row col m2 ij)) /\
  (forall row col m1 m2 ij x y, mat_rel R m1 m2 -> R x y ->
     alike RS (mat_rel R) (mindex_static_set c row col m1 ij x) (mindex_static_set c row col m2 ij y)) /\
  (forall row col m1 m2 ij, mat_rel R m1 m2 -> alike RS R (mget_unchecked c row col m1 ij) (mget_unchecked c row col m2 ij)) /\
  (forall row col m1 m2 ij x y, mat_rel R m1 m2 -> R x y ->
     alike RS (mat_rel R) (mset_unchecked c row col m1 ij x) (mset_unchecked c row col m2 ij y)).
Proof.
  intros S1 S2 A B RS R c. conjs; intros.
  - now apply r_vindex.
  - now apply r_vindex_set.
  - now apply r_vindex_static.
  - now apply r_vget.
  - now apply r_vindex_static_set.
  - now apply r_mindex.
  - now apply r_mindex_set.
  - now apply r_static.
  - now apply r_static_set.
  - now apply r_mget.
  - now apply r_mset.
Qed.
Print Assumptions C86_access.

(** ** C86: entrywise operators, between three possibly different element types *)
Theorem C86_operators : forall (S1 S2 A1 A2 B1 B2 C1 C2 : Type) (RS : S1 -> S2 -> Prop)
    (RA : A1 -> A2 -> Prop) (RB : B1 -> B2 -> Prop) (RC : C1 -> C2 -> Prop) (c : cfg)
    (da1 : ety S1 A1) (da2 : ety S2 A2) (db1 : ety S1 B1) (db2 : ety S2 B2) (dc1 : ety S1 C1) (dc2 : ety S2 C2) f1 f2,
  ety_alike RS RA da1 da2 -> ety_alike RS RB db1 db2 -> ety_alike RS RC dc1 dc2 -> op2_alike RS RA RB RC f1 f2 ->
  (forall n,
     op2_alike RS (vec_rel RA) (vec_rel RB) (vec_rel RC) (vzip_vv c da1 db1 dc1 n f1) (vzip_vv c da2 db2 dc2 n f2) /\
     op2_alike RS (vec_rel RA) (vec_rel RB) (vec_rel RC) (vzip_vr c da1 dc1 n f1) (vzip_vr c da2 dc2 n f2) /\
     op2_alike RS (vec_rel RA) (vec_rel RB) (vec_rel RC) (vzip_rv c db1 dc1 n f1) (vzip_rv c db2 dc2 n f2) /\
     op2_alike RS (vec_rel RA) (vec_rel RB) (vec_rel RC) (vzip_rr c dc1 n f1) (vzip_rr c dc2 n f2)) /\
  (forall row col,
     op2_alike RS (mat_rel RA) (mat_rel RB) (mat_rel RC) (mzip_vv c da1 db1 dc1 row col f1) (mzip_vv c da2 db2 dc2 row col f2) /\
     op2_alike RS (mat_rel RA) (mat_rel RB) (mat_rel RC) (mzip_vr c da1 dc1 row col f1) (mzip_vr c da2 dc2 row col f2) /\
     op2_alike RS (mat_rel RA) (mat_rel RB) (mat_rel RC) (mzip_rv c db1 dc1 row col f1) (mzip_rv c db2 dc2 row col f2) /\
     op2_alike RS (mat_rel RA) (mat_rel RB) (mat_rel RC) (mzip_rr c dc1 row col f1) (mzip_rr c dc2 row col f2)) /\
  (forall n cl1 cl2, op1_alike RS RB RB cl1 cl2 ->
     op2_alike RS (vec_rel RA) RB (vec_rel RC) (vscale c da1 dc1 n f1 cl1) (vscale c da2 dc2 n f2 cl2)).
Proof.
  intros S1 S2 A1 A2 B1 B2 C1 C2 RS RA RB RC c da1 da2 db1 db2 dc1 dc2 f1 f2 Ha Hb Hc Hf. conjs; intros; conjs.
  - now apply r_vzip_vv.
  - now apply r_vzip_vr.
  - now apply r_vzip_rv.
  - now apply r_vzip_rr.
  - now apply r_mzip_vv.
  - now apply r_mzip_vr.
  - now apply r_mzip_rv.
  - now apply r_mzip_rr.
  - now apply r_vscale.
Qed.
Print Assumptions C86_operators.

(** ** C86: maps, clones, transposes, predicates *)
Theorem C86_maps : forall (S1 S2 A1 A2 B1 B2 : Type) (RS : S1 -> S2 -> Prop) (RA : A1 -> A2 -> Prop) (RB : B1 -> B2 -> Prop) (c : cfg)
    (da1 : ety S1 A1) (da2 : ety S2 A2) (db1 : ety S1 B1) (db2 : ety S2 B2),
  ety_alike RS RA da1 da2 -> ety_alike RS RB db1 db2 ->
  (forall f1 f2, op1_alike RS RA RB f1 f2 ->
     (forall n, op1_alike RS (vec_rel RA) (vec_rel RB) (vneg c da1 db1 n f1) (vneg c da2 db2 n f2)) /\
     (forall row col, op1_alike RS (mat_rel RA) (mat_rel RB) (mneg c da1 db1 row col f1) (mneg c da2 db2 row col f2))) /\
  (forall row col f1 f2, (forall ij, op1_alike RS RA RB (f1 ij) (f2 ij)) ->
     op1_alike RS (mat_rel RA) (mat_rel RB) (mmap c da1 db1 row col f1) (mmap c da2 db2 row col f2)) /\
  (forall row col p1 p2, (forall ij, op1_alike RS RA eq (p1 ij) (p2 ij)) ->
     op1_alike RS (mat_rel RA) eq (mall row col p1) (mall row col p2) /\
     op1_alike RS (mat_rel RA) eq (many row col p1) (many row col p2)) /\
  (forall cl1 cl2, op1_alike RS RA RA cl1 cl2 ->
     (forall n, op1_alike RS (vec_rel RA) (vec_rel RA) (vclone c da1 n cl1) (vclone c da2 n cl2)) /\
     (forall row col, op1_alike RS (mat_rel RA) (mat_rel RA) (mclone c da1 cl1 row col) (mclone c da2 cl2 row col)) /\
     (forall row col, op1_alike RS (mat_rel RA) (mat_rel RA) (mtransposed c da1 cl1 row col) (mtransposed c da2 cl2 row col)) /\
     (forall n, alike (pair_rel (mat_rel RA) RS) eq (mtranspose c da1 cl1 n) (mtranspose c da2 cl2 n))).
Proof.
  intros S1 S2 A1 A2 B1 B2 RS RA RB c da1 da2 db1 db2 Ha Hb. conjs; intros; conjs; intros.
  - now apply r_vneg.
  - now apply r_mneg.
  - intros x y Hx. now apply (r_mmap RS c RA da1 da2 Ha RB).
  - intros x y Hx. now apply (r_mall RS RA).
  - intros x y Hx. now apply (r_many RS RA).
  - now apply r_vclone.
  - now apply r_mclone.
  - intros x y Hx. now apply r_mtransposed.
  - now apply r_mtranspose.
Qed.
Print Assumptions C86_maps.

(** ** C86: in-place operators; the receivers stay related also after a panic *)
Theorem C86_assign : forall (S1 S2 A1 A2 B1 B2 : Type) (RS : S1 -> S2 -> Prop) (RA : A1 -> A2 -> Prop) (RB : B1 -> B2 -> Prop) (c : cfg)
    (db1 : ety S1 B1) (db2 : ety S2 B2) (f1 : B1 -> M (A1 * S1) unit) (f2 : B2 -> M (A2 * S2) unit),
  ety_alike RS RB db1 db2 -> assign_alike RS RA RB f1 f2 ->
  (forall n, assign_alike RS (vec_rel RA) (vec_rel RB) (vop_assign c db1 n f1) (vop_assign c db2 n f2)) /\
  (forall row col, assign_alike RS (mat_rel RA) (mat_rel RB) (mop_assign c db1 row col f1) (mop_assign c db2 row col f2)) /\
  (forall cl1 cl2, op1_alike RS RB RB cl1 cl2 ->
     assign_alike RS (vec_rel RA) RB (vscale_assign f1 cl1) (vscale_assign f2 cl2)).
Proof.
  intros S1 S2 A1 A2 B1 B2 RS RA RB c db1 db2 f1 f2 Hb Hf. conjs; intros; intros x y Hx.
  - now apply (r_vop_assign RS c RA RB).
  - now apply (r_mop_assign RS c RA RB).
  - now apply (r_vscale_assign RS RA RB).
Qed.
Print Assumptions C86_assign.

(** ** C86: everything that needs only the ring operations *)
Theorem C86_ring : forall (S1 S2 A B : Type) (RS : S1 -> S2 -> Prop) (R : A -> B -> Prop) (c : cfg)
    (d1 : ety S1 A) (d2 : ety S2 B) (o1 : ops S1 A) (o2 : ops S2 B),
  ety_alike RS R d1 d2 -> ring_alike RS R o1 o2 ->
  (forall n, op2_alike RS (vec_rel R) (vec_rel R) R (vdot o1 n) (vdot o2 n) /\ op1_alike RS (vec_rel R) R (vsum o1 n) (vsum o2 n)) /\
  op2_alike RS (vec_rel R) (vec_rel R) (vec_rel R) (vcross c o1) (vcross c o2) /\
  (forall row col, op1_alike RS (mat_rel R) R (msum o1 row col) (msum o2 row col)) /\
  (forall lr n rc,
     op2_alike RS (mat_rel R) (mat_rel R) (mat_rel R) (mmul_vv c d1 o1 lr n rc) (mmul_vv c d2 o2 lr n rc) /\
     op2_alike RS (mat_rel R) (mat_rel R) (mat_rel R) (mmul_vr c d1 o1 lr n rc) (mmul_vr c d2 o2 lr n rc) /\
     op2_alike RS (mat_rel R) (mat_rel R) (mat_rel R) (mmul_rv c d1 o1 lr n rc) (mmul_rv c d2 o2 lr n rc) /\
     op2_alike RS (mat_rel R) (mat_rel R) (mat_rel R) (mmul_rr c d1 o1 lr n rc) (mmul_rr c d2 o2 lr n rc)) /\
  (forall n, assign_alike RS (mat_rel R) (mat_rel R) (mmul_assign c d1 o1 n) (mmul_assign c d2 o2 n)) /\
  (forall row col,
     op2_alike RS (mat_rel R) (vec_rel R) (vec_rel R) (mmulv c d1 o1 row col) (mmulv c d2 o2 row col) /\
     op2_alike RS (mat_rel R) (vec_rel R) (vec_rel R) (mmulv_ref c d1 o1 row col) (mmulv_ref c d2 o2 row col)) /\
  (forall row col f1 f2, op2_alike RS R R R f1 f2 ->
     op2_alike RS (mat_rel R) R (mat_rel R) (mscale c d1 row col f1 (o_clone o1)) (mscale c d2 row col f2 (o_clone o2)) /\
     op2_alike RS (mat_rel R) R (mat_rel R) (mscale_ref c d1 row col f1) (mscale_ref c d2 row col f2)) /\
  (forall f1 f2, assign_alike RS R R f1 f2 ->
     assign_alike RS (mat_rel R) R (mscale_assign f1 (o_clone o1)) (mscale_assign f2 (o_clone o2))) /\
  (forall n e, op1_alike RS (mat_rel R) (mat_rel R) (fun m => mpow c d1 o1 n m e) (fun m => mpow c d2 o2 n m e)) /\
  (* the determinants and cofactors up to size 3 use no division *)
  (forall n, n <= 3 -> op1_alike RS (mat_rel R) R (det c d1 o1 n) (det c d2 o2 n)) /\
  (forall n ij, n <= 3 -> op1_alike RS (mat_rel R) R (fun m => cofactor c d1 o1 n m ij) (fun m => cofactor c d2 o2 n m ij)) /\
  (forall row col (dz1 : ety S1 (complex A)) (dz2 : ety S2 (complex B)), ety_alike RS (complex_rel R) dz1 dz2 ->
     op1_alike RS (mat_rel (complex_rel R)) (mat_rel (complex_rel R)) (mconjugate c dz1 o1 row col) (mconjugate c dz2 o2 row col)).
Proof.
  intros S1 S2 A B RS R c d1 d2 o1 o2 Hd HO. conjs; intros; conjs.
  - exact (r_vdot RS R _ _ HO n).
  - exact (r_vsum RS R _ _ HO n).
  - exact (r_vcross RS c R _ _ HO).
  - intros x y Hx. exact (r_msum RS R _ _ HO row col x y Hx).
  - exact (r_mmul_vv RS c R d1 d2 _ _ Hd HO lr n rc).
  - exact (r_mmul_vr RS c R d1 d2 _ _ Hd HO lr n rc).
  - exact (r_mmul_rv RS c R d1 d2 _ _ Hd HO lr n rc).
  - exact (r_mmul_rr RS c R d1 d2 _ _ Hd HO lr n rc).
  - intros x y Hx. exact (r_mmul_assign RS c R d1 d2 _ _ Hd HO n x y Hx).
  - intros x y u v Hx Hu. exact (r_mmulv RS c R d1 d2 _ _ Hd HO row col x y u v Hx Hu).
  - intros x y u v Hx Hu. exact (r_mmulv_ref RS c R d1 d2 _ _ Hd HO row col x y u v Hx Hu).
  - exact (r_mscale RS c R d1 d2 _ _ Hd HO row col f1 f2 H).
  - now apply r_mscale_ref.
  - intros x y Hx. exact (r_mscale_assign RS R _ _ HO f1 f2 H x y Hx).
  - intros x y Hx. exact (r_mpow RS c R d1 d2 _ _ Hd HO n x y e Hx).
  - intros x y Hx. destruct n as [|[|[|[|n]]]]; [apply r_ub|now apply r_idx|now apply r_det2|now apply r_det3|lia].
  - intros x y Hx. destruct n as [|[|[|[|n]]]]; [apply r_ub|apply r_ub|now apply r_cof2|now apply r_cof3|lia].
  - intros x y Hx. exact (r_mconjugate RS c R _ _ HO dz1 dz2 row col x y H Hx).
Qed.
Print Assumptions C86_ring.

(** ** C86: determinant, cofactors and inverse of any size, zero tests, norms *)
Theorem C86_field : forall (S1 S2 A B : Type) (RS : S1 -> S2 -> Prop) (R : A -> B -> Prop) (c : cfg)
    (d1 : ety S1 A) (d2 : ety S2 B) (o1 : ops S1 A) (o2 : ops S2 B),
  ety_alike RS R d1 d2 -> ops_alike RS R o1 o2 ->
  (forall n, op1_alike RS (mat_rel R) R (det c d1 o1 n) (det c d2 o2 n)) /\
  (forall n ij, op1_alike RS (mat_rel R) R (fun m => cofactor c d1 o1 n m ij) (fun m => cofactor c d2 o2 n m ij)) /\
  (forall n, op1_alike RS (mat_rel R) (opt_rel (mat_rel R)) (inverse c d1 o1 n) (inverse c d2 o2 n)) /\
  (forall n, op1_alike RS (vec_rel R) eq (vis_zero o1 n) (vis_zero o2 n)) /\
  (forall row col, op1_alike RS (mat_rel R) eq (mis_zero o1 row col) (mis_zero o2 row col)) /\
  (forall sq1 sq2 rt1 rt2 n, op1_alike RS R R sq1 sq2 -> op1_alike RS R R rt1 rt2 ->
     op1_alike RS (vec_rel R) R (vnorm (Fops o1 sq1 rt1) n) (vnorm (Fops o2 sq2 rt2) n) /\
     op1_alike RS (vec_rel R) (vec_rel R) (vnormalized c d1 (Fops o1 sq1 rt1) n) (vnormalized c d2 (Fops o2 sq2 rt2) n)).
Proof.
  intros S1 S2 A B RS R c d1 d2 o1 o2 Hd HA. pose proof (oa_ring _ _ _ _ HA) as HO. conjs; intros; conjs.
  - now apply r_det.
  - intros x y Hx. now apply r_cofactor.
  - intros x y Hx. now apply r_inverse.
  - intros x y Hx. now apply (r_vis_zero RS R).
  - intros x y Hx. now apply (r_mis_zero RS R).
  - now apply r_vnorm.
  - now apply r_vnormalized.
Qed.
Print Assumptions C86_field.

(** ** C86: comparisons *)
Theorem C86_comparisons : forall (S1 S2 A B : Type) (RS : S1 -> S2 -> Prop) (R : A -> B -> Prop) (c : cfg)
    (d1 : ety S1 A) (d2 : ety S2 B) cl1 cl2 cmp1 cmp2 eq1 eq2,
  ety_alike RS R d1 d2 -> op1_alike RS R R cl1 cl2 -> op2_alike RS R R eq cmp1 cmp2 -> op2_alike RS R R eq eq1 eq2 ->
  (forall n,
     op1_alike RS (vec_rel R) R (vmax_m cl1 cmp1 n) (vmax_m cl2 cmp2 n) /\ op1_alike RS (vec_rel R) R (vmin_m cl1 cmp1 n) (vmin_m cl2 cmp2 n) /\
     op1_alike RS (vec_rel R) R (vmax_by cl1 cmp1 n) (vmax_by cl2 cmp2 n) /\ op1_alike RS (vec_rel R) R (vmin_by cl1 cmp1 n) (vmin_by cl2 cmp2 n) /\
     op1_alike RS (mat_rel R) R (mmax_m d1 cl1 cmp1 n) (mmax_m d2 cl2 cmp2 n) /\ op1_alike RS (mat_rel R) R (mmin_m d1 cl1 cmp1 n) (mmin_m d2 cl2 cmp2 n) /\
     op1_alike RS (mat_rel R) R (mmax_by cl1 cmp1 n) (mmax_by cl2 cmp2 n) /\ op1_alike RS (mat_rel R) R (mmin_by cl1 cmp1 n) (mmin_by cl2 cmp2 n)) /\
  (forall lo1 lo2 hi1 hi2, R lo1 lo2 -> R hi1 hi2 ->
     (forall n, op1_alike RS (vec_rel R) (vec_rel R) (fun v => vclamped_m c d1 cl1 cmp1 n v lo1 hi1) (fun v => vclamped_m c d2 cl2 cmp2 n v lo2 hi2)) /\
     (forall row col, op1_alike RS (mat_rel R) (mat_rel R) (fun m => mclamped_m c d1 cl1 cmp1 row col m lo1 hi1) (fun m => mclamped_m c d2 cl2 cmp2 row col m lo2 hi2)) /\
     alike (pair_rel (vec_rel R) RS) eq (vclamp_m d1 cl1 cmp1 lo1 hi1) (vclamp_m d2 cl2 cmp2 lo2 hi2) /\
     alike (pair_rel (mat_rel R) RS) eq (mclamp_m d1 cl1 cmp1 lo1 hi1) (mclamp_m d2 cl2 cmp2 lo2 hi2)) /\
  op2_alike RS (vec_rel R) (vec_rel R) eq (veq_m eq1) (veq_m eq2) /\
  op2_alike RS (mat_rel R) (mat_rel R) eq (meq_m eq1) (meq_m eq2) /\
  (forall row col, op2_alike RS (mat_rel R) (mat_rel R) eq (mapprox_eq c eq1 row col) (mapprox_eq c eq2 row col)).
Proof.
  intros S1 S2 A B RS R c d1 d2 cl1 cl2 cmp1 cmp2 eq1 eq2 Hd Hcl Hco He.
  assert (Hco' : op2_alike RS R R eq (fun a b => cmp1 b a) (fun a b => cmp2 b a)) by (intros x y u v Hx Hu; now apply Hco).
  conjs; intros; conjs; intros.
  - now apply r_vselect.
  - now apply r_vselect.
  - now apply r_vmax_by.
  - now apply r_vmax_by.
  - now apply r_mselect.
  - now apply r_mselect.
  - now apply r_mmax_by.
  - now apply r_mmax_by.
  - intros v w Hv. now apply r_vclamped.
  - intros v w Hv. now apply r_mclamped.
  - now apply r_mclamp.
  - now apply r_mclamp.
  - now apply r_slice_eq.
  - now apply r_meq_m.
  - now apply r_mapprox.
Qed.
Print Assumptions C86_comparisons.

(** ** C86: formatting.  Elements that print alike give matrices that print alike. *)
Theorem C86_format : forall (S1 S2 A B : Type) (RS : S1 -> S2 -> Prop) (R : A -> B -> Prop) (c : cfg)
    (w1 : str -> M S1 bool) (w2 : str -> M S2 bool) (slen : str -> nat),
  (forall t, alike RS eq (w1 t) (w2 t)) ->
  (forall f1 f2, op1_alike RS R eq f1 f2 ->
     op1_alike RS (vec_rel R) eq (vdebug w1 f1) (vdebug w2 f2) /\
     (forall row, op1_alike RS (mat_rel R) eq (mdebug c w1 f1 row) (mdebug c w2 f2 row))) /\
  (forall f1 f2, op1_alike RS R eq f1 f2 ->
     forall row col, op1_alike RS (mat_rel R) eq (mdisplay c w1 slen f1 row col) (mdisplay c w2 slen f2 row col)).
Proof.
  intros S1 S2 A B RS R c w1 w2 slen Hw. conjs; intros; conjs; intros; intros x y Hx.
  - now apply (r_vdebug RS w1 w2 Hw R).
  - now apply (r_mdebug RS c w1 w2 Hw R).
  - now apply (r_mdisplay RS c w1 w2 Hw R).
Qed.
Print Assumptions C86_format.

(** ** C86: iterators under any history of calls, including those of C07 and C08 that have
    undefined behaviour *)
Lemma of_hist {S1 S2 X Y A B} (RS : S1 -> S2 -> Prop) (P : X -> Y -> Prop) (R : A -> B -> Prop) step1 step2 x1 x2 :
  (forall op, alike (pair_rel P RS) (out_rel R) (step1 op) (step2 op)) -> P x1 x2 -> history_alike RS R step1 x1 step2 x2.
Proof.
  intros H HP ops s1 s2 HS. destruct (r_history RS P R step1 step2 H ops (x1, s1) (x2, s2) (Logic.conj HP HS)) as [G1 [_ G2]].
  now split.
Qed.
Theorem C86_iterators : forall (S1 S2 A B : Type) (RS : S1 -> S2 -> Prop) (R : A -> B -> Prop) (c : cfg)
    (d1 : ety S1 A) (d2 : ety S2 B) cl1 cl2, ety_alike RS R d1 d2 -> op1_alike RS R R cl1 cl2 ->
  (forall n v w, vec_rel R v w ->
     history_alike RS R (ii_step c d1 n) (into_iter n v) (ii_step c d2 n) (into_iter n w) /\
     forall k, history_alike RS (vec_rel R) (ch_step c d1 n k) (into_chunks n v) (ch_step c d2 n k) (into_chunks n w)) /\
  (forall row col m1 m2, mat_rel R m1 m2 ->
     history_alike RS (vec_rel R) (rr_step c row m1) (rr_new row) (rr_step c row m2) (rr_new row) /\
     history_alike RS (vec_rel R) (ri_step c row col m1 d1 cl1) (ri_new row) (ri_step c row col m2 d2 cl2) (ri_new row) /\
     history_alike RS (vec_rel R) (ci_step c row col m1 d1 cl1) (ci_new col) (ci_step c row col m2 d2 cl2) (ci_new col) /\
     history_alike RS (fun p q => p = q /\ history_alike RS R (cin_step c row col m1) p (cin_step c row col m2) q)
       (cr_step c row col) (cr_new col) (cr_step c row col) (cr_new col)).
Proof.
  intros S1 S2 A B RS R c d1 d2 cl1 cl2 Hd Hcl. conjs; intros; conjs; intros.
  - apply (of_hist RS (ii_rel R)); [now apply r_ii_step|now apply r_into].
  - apply (of_hist RS (ii_rel R)); [intros op; now apply r_ch_step|now apply r_into].
  - apply (of_hist RS eq); [intros op; now apply r_rr_step|reflexivity].
  - apply (of_hist RS eq); [intros op; now apply r_ri_step|reflexivity].
  - apply (of_hist RS eq); [intros op; now apply r_ci_step|reflexivity].
  - apply (of_hist RS eq); [|reflexivity]. intros op. eapply r_weak; [apply r_cr_step|].
    intros [[p|]|k|l h] [[q|]|k'|l' h'] E; cbn in *; auto. split; [exact E|]. subst q.
    apply (of_hist RS eq); [intros op'; now apply r_cin_step|reflexivity].
Qed.
Print Assumptions C86_iterators.

(** ** C86: homomorphisms.  If a function [f] between two element types commutes with the
    operations, it can be applied to the entries before or after. *)
Lemma map_f2 {A B} (f : A -> B) l : Forall2 (fun x y => y = f x) l (map f l).
Proof. induction l; constructor; auto. Qed.
Lemma map_f2_inv {A B} (f : A -> B) l l' : Forall2 (fun x y => y = f x) l l' -> l' = map f l.
Proof. induction 1; cbn; congruence. Qed.
Lemma mmap_f2 {A B} (f : A -> B) m : Forall2 (Forall2 (fun x y => y = f x)) m (map (map f) m).
Proof. induction m; constructor; auto. apply map_f2. Qed.
Lemma mmap_f2_inv {A B} (f : A -> B) l l' : Forall2 (Forall2 (fun x y => y = f x)) l l' -> l' = map (map f) l.
Proof. induction 1; cbn; [reflexivity|]. f_equal; [now apply map_f2_inv|assumption]. Qed.
Lemma alike_map {S A B} (R : A -> B -> Prop) (f : A -> B) (m1 : M S A) (m2 : M S B) :
  (forall x y, R x y -> y = f x) -> alike eq R m1 m2 -> forall s, m2 s = and_map f m1 s.
Proof.
  intros HR H s. destruct (H s s eq_refl) as [H1 H2]. unfold and_map. destruct (m1 s) as [r1 t1], (m2 s) as [r2 t2].
  cbn in *. subst t2. f_equal. destruct r1, r2; cbn in *; try contradiction; auto. f_equal. now apply HR.
Qed.
Theorem C86_homomorphism : forall (S A B : Type) (f : A -> B) (c : cfg) (d1 : ety S A) (d2 : ety S B) (o1 : ops S A) (o2 : ops S B),
  ety_alike eq (fun x y => y = f x) d1 d2 ->
  (ring_alike eq (fun x y => y = f x) o1 o2 ->
    (forall lr n rc a b s, mmul_vv c d2 o2 lr n rc (map (map f) a) (map (map f) b) s = and_map (map (map f)) (mmul_vv c d1 o1 lr n rc a b) s) /\
    (forall row col m v s, mmulv c d2 o2 row col (map (map f) m) (map f v) s = and_map (map f) (mmulv c d1 o1 row col m v) s) /\
    (forall n u v s, vdot o2 n (map f u) (map f v) s = and_map f (vdot o1 n u v) s) /\
    (forall u v s, vcross c o2 (map f u) (map f v) s = and_map (map f) (vcross c o1 u v) s) /\
    (forall row col m s, msum o2 row col (map (map f) m) s = and_map f (msum o1 row col m) s) /\
    (forall n m e s, mpow c d2 o2 n (map (map f) m) e s = and_map (map (map f)) (mpow c d1 o1 n m e) s) /\
    (forall n m s, n <= 3 -> det c d2 o2 n (map (map f) m) s = and_map f (det c d1 o1 n m) s)) /\
  (ops_alike eq (fun x y => y = f x) o1 o2 ->
    (forall n m s, det c d2 o2 n (map (map f) m) s = and_map f (det c d1 o1 n m) s) /\
    (forall n m ij s, cofactor c d2 o2 n (map (map f) m) ij s = and_map f (cofactor c d1 o1 n m ij) s) /\
    (forall n m s, inverse c d2 o2 n (map (map f) m) s = and_map (option_map (map (map f))) (inverse c d1 o1 n m) s)).
Proof.
  intros S A B f c d1 d2 o1 o2 Hd. set (R := fun x y => y = f x) in *. split.
  - intros HR. destruct (C86_ring S S A B eq R c d1 d2 o1 o2 Hd HR) as (H1 & H2 & H3 & H4 & _ & H5 & _ & _ & H6 & H7 & _).
    conjs; intros.
    + apply (alike_map (mat_rel R)); [apply mmap_f2_inv|]. exact (proj1 (H4 lr n rc) _ _ _ _ (mmap_f2 f a) (mmap_f2 f b)).
    + apply (alike_map (vec_rel R)); [apply map_f2_inv|]. exact (proj1 (H5 row col) _ _ _ _ (mmap_f2 f m) (map_f2 f v)).
    + apply (alike_map R); [auto|]. exact (proj1 (H1 n) _ _ _ _ (map_f2 f u) (map_f2 f v)).
    + apply (alike_map (vec_rel R)); [apply map_f2_inv|]. exact (H2 _ _ _ _ (map_f2 f u) (map_f2 f v)).
    + apply (alike_map R); [auto|]. exact (H3 row col _ _ (mmap_f2 f m)).
    + apply (alike_map (mat_rel R)); [apply mmap_f2_inv|]. exact (H6 n e _ _ (mmap_f2 f m)).
    + apply (alike_map R); [auto|]. exact (H7 n H _ _ (mmap_f2 f m)).
  - intros HO. destruct (C86_field S S A B eq R c d1 d2 o1 o2 Hd HO) as (H1 & H2 & H3 & _).
    conjs; intros.
    + apply (alike_map R); [auto|]. exact (H1 n _ _ (mmap_f2 f m)).
    + apply (alike_map R); [auto|]. exact (H2 n ij _ _ (mmap_f2 f m)).
    + apply (alike_map (opt_rel (mat_rel R))); [|exact (H3 n _ _ (mmap_f2 f m))].
      intros [x|] [y|] Hx; cbn in Hx; try contradiction; cbn; [|reflexivity]. f_equal. now apply mmap_f2_inv.
Qed.
Print Assumptions C86_homomorphism.

(** ** C86: machine integers.  Matrices of wrapping [k]-bit integers compute the exact integer
    results modulo [2^k]. *)
Definition exact_ops {S} : ops S Z :=
  Ops 0%Z 1%Z (fun x y => ret (x + y)%Z) (fun x y => ret (x - y)%Z) (fun x y => ret (x * y)%Z)
    (fun x y => if (y =? 0)%Z then panic else ret (Z.quot x y)) (fun x => ret (- x)%Z) (Z.eqb 0) (fun x => ret x).
Definition wrap (k : Z) (x : Z) : Z := (x mod 2 ^ k)%Z.
Definition wrapping_ops {S} (k : Z) : ops S Z :=
  Ops 0%Z (wrap k 1) (fun x y => ret (wrap k (x + y))) (fun x y => ret (wrap k (x - y))) (fun x y => ret (wrap k (x * y)))
    (fun x y => if (y =? 0)%Z then panic else ret (Z.quot x y)) (fun x => ret (wrap k (- x))) (Z.eqb 0) (fun x => ret x).
Lemma wrapping_ring {S} k : (0 <= k)%Z -> @ring_alike S S Z Z eq (fun x y => y = wrap k x) exact_ops (wrapping_ops k).
Proof.
  intros Hk. assert (Hp : (2 ^ k)%Z <> 0%Z) by (pose proof (Z.pow_pos_nonneg 2 k); lia).
  split; unfold op1_alike, op2_alike, wrap; intros; subst; try (apply r_ret); cbn; unfold wrap; try reflexivity.
  - symmetry. now apply Z.add_mod.
  - symmetry. apply Zminus_mod.
  - symmetry. now apply Z.mul_mod.
  - rewrite <- (Z.sub_0_l (x mod _)), <- (Z.sub_0_l x). now rewrite Zminus_mod_idemp_r.
Qed.
Corollary C86_wrapping : forall (S : Type) (c : cfg) (d : ety S Z) k, (0 <= k)%Z -> (forall x s, e_drop d x s = s) ->
  let W := map (map (wrap k)) in
  (forall lr n rc a b s, mmul_vv c d (wrapping_ops k) lr n rc (W a) (W b) s = and_map W (mmul_vv c d exact_ops lr n rc a b) s) /\
  (forall n m e s, mpow c d (wrapping_ops k) n (W m) e s = and_map W (mpow c d exact_ops n m e) s) /\
  (forall n m s, n <= 3 -> det c d (wrapping_ops k) n (W m) s = and_map (wrap k) (det c d exact_ops n m) s).
Proof.
  intros S c d k Hk Hd W. destruct (C86_homomorphism S Z Z (wrap k) c d d exact_ops (wrapping_ops k)) as [H _].
  - split; [reflexivity|]. intros x y s1 s2 _ <-. now rewrite !Hd.
  - destruct (H (wrapping_ring k Hk)) as (H1 & _ & _ & _ & _ & H2 & H3). now conjs.
Qed.
Print Assumptions C86_wrapping.

(** ** C86, examples: a power and a determinant over bytes ([k = 8]) and over the integers, the
    hypotheses of the homomorphism theorem for them; and an instrumented element type (a number
    with a count of operations in the world) that prints and panics like the plain one. *)
Definition counted (f : Z -> Z -> Z) (x y : Z) : M nat Z := fun k => (Ok (f x y), k + 1).
Definition counted_ops : ops nat Z :=
  Ops 0%Z 1%Z (counted Z.add) (counted Z.sub) (counted Z.mul)
    (fun x y k => if (y =? 0)%Z then (Panic, k + 1) else (Ok (Z.quot x y), k + 1)) (fun x => counted (fun x _ => - x)%Z x x) (Z.eqb 0)
    (fun x => ret x).
Example C86_ex :
  let m := [[100; 3]; [7; 0]]%Z in
  fst (mpow dbg ref_ety exact_ops 2 m 3 tt) = Ok [[1004200; 30063]; [70147; 2100]]%Z /\
  fst (mpow dbg ref_ety (wrapping_ops 8) 2 m 3 tt) = Ok [[168; 111]; [3; 52]]%Z /\
  map (map (wrap 8)) [[1004200; 30063]; [70147; 2100]]%Z = [[168; 111]; [3; 52]]%Z /\
  fst (det dbg ref_ety exact_ops 3 [[20; 30; 1]; [40; 5; 2]; [1; 1; 300]]%Z tt) = Ok (-329945)%Z /\
  fst (det dbg ref_ety (wrapping_ops 8) 3 (map (map (wrap 8)) [[20; 30; 1]; [40; 5; 2]; [1; 1; 300]]%Z) tt) = Ok (wrap 8 (-329945)) /\
  (* the world of the plain elements is [unit], of the instrumented ones [nat]; any two are related *)
  ops_alike (fun (_ : unit) (_ : nat) => True) eq exact_ops counted_ops /\
  det dbg ref_ety counted_ops 4 [[2; 0; 1; 0]; [1; 3; 2; 1]; [1; 1; 4; 0]; [0; 0; 1; 1]]%Z 0 = (Ok 24%Z, 58).
Proof.
  cbv zeta. conjs; try (vm_compute; reflexivity). split.
  - split; unfold op1_alike, op2_alike; intros; subst; try reflexivity; intros s1 s2 _; now split.
  - intros x y u v -> -> s1 s2 _. cbn. destruct (v =? 0)%Z; now split.
  - now intros x y ->.
Qed.
