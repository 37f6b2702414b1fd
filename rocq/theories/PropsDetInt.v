(** * PropsDetInt.v - theorems for C44 (determinants of size 1 to 3 over every commutative ring)
    and C51 (determinants of integer matrices). *)
From Coq Require Import List Arith Bool Lia ZArith Ring.
From Verif Require Import Rust Iter Elem VectorM MatIterM MatrixM ArithM OpsM IntM SpecCommon SpecAlg Harness.
From Verif Require Import IterProofs OwnProofs ChunkProofs VecProofs MatProofs AccProofs Sim Algebra PropsAlg PropsCross DetSmall PropsInt.
Import ListNotations.

(** ** C44 *)
Theorem C44_small_determinants_over_rings :
  forall S T (c : cfg) (d : ety S T) (o : ops S T) (A : arith T), exact o A -> ring_laws A -> mul_comm A ->
  forall n m (s : S), 1 <= n <= 3 -> rect n n m -> det c d o n m s = (Ok (m_det A n m), s).
Proof.
  intros S T c d o A E L C n m s Hn R. pose proof (exact_sim o A E) as ES. apply sim_eq.
  destruct n as [|[|[|[|n]]]]; try lia.
  - rewrite <- det1_laplace by assumption. apply sim_det1; auto using Forall2_eq2.
  - rewrite <- det2_laplace by assumption. apply sim_det2; auto using Forall2_eq2.
  - rewrite <- det3_laplace by assumption. apply sim_det3; auto using Forall2_eq2.
Qed.
Print Assumptions C44_small_determinants_over_rings.
(** The integers meet the hypotheses; a 3 x 3 determinant with all six terms non-zero. *)
Example C44_ex : forall S (c : cfg) (d : ety S Z) s,
  det c d z_ops 3 [[2; 3; 5]; [7; 11; 13]; [17; 19; 29]]%Z s = (Ok (-72)%Z, s).
Proof.
  intros. rewrite (C44_small_determinants_over_rings _ _ c d z_ops z_arith (z_exact S) (proj1 z_ring) (proj2 z_ring)).
  - reflexivity.
  - lia.
  - split; [reflexivity|]. repeat constructor.
Qed.

(** ** C51 *)
(** The exact integer determinant is returned up to size 3 ... *)
Theorem C51_up_to_3_partial :
  forall S (c : cfg) (d : ety S Z) n m (s : S), 1 <= n <= 3 -> rect n n m ->
  det c d z_ops n m s = (Ok (m_det z_arith n m), s).
Proof. intros. apply C44_small_determinants_over_rings; auto using z_exact; apply z_ring. Qed.
Print Assumptions C51_up_to_3_partial.
(** ... and, on a machine type with overflow checks, this or a panic. *)
Theorem C51_up_to_3_checked_partial :
  forall S (c : cfg) (d : ety S Z) t n m, 1 <= n <= 3 -> (1 < i_bits t)%Z -> rect n n m -> m_in_range t m ->
  exact_or_panics (S := S) (det c d (int_ops true t) n m) (m_det z_arith n m).
Proof.
  intros S c d t n m Hn Hb R I. apply (chk_out1 t). apply sim_det_small; auto using Rchk_m.
  apply int_sim_checked; [now apply rng1|apply rng0].
Qed.
Print Assumptions C51_up_to_3_checked_partial.

(** Above size 3 the elimination divides, and integer division truncates. *)
Definition m51 : list (list Z) := [[2; 1; 0; 0]; [1; 1; 0; 0]; [0; 0; 1; 0]; [0; 0; 0; 1]]%Z.
Theorem C51_refuted :
  exists m, rect 4 4 m /\ m_det z_arith 4 m = 1%Z /\
  (forall S (c : cfg) (d : ety S Z) (s : S), det c d z_ops 4 m s = (Ok 2%Z, s)).
Proof.
  exists m51. assert (R : rect 4 4 m51) by (split; [reflexivity|repeat constructor]).
  split; [exact R|]. split; [reflexivity|]. intros S c d s.
  cbn [det]. unfold det_big. unfold bind at 1. rewrite mclone_id; [|exact R|reflexivity]. vm_compute. reflexivity.
Qed.
Print Assumptions C51_refuted.
Lemma bits32 : (0 < 32)%Z. Proof. reflexivity. Qed.
Definition i32 : ity := Ity true 32 bits32.
Theorem C51_i32_refuted :
  exists m, rect 4 4 m /\ m_in_range i32 m /\ m_det z_arith 4 m = 1%Z /\
  (forall S (c : cfg) (d : ety S Z) (s : S) debug, det c d (int_ops debug i32) 4 m s = (Ok 2%Z, s)).
Proof.
  exists m51. assert (R : rect 4 4 m51) by (split; [reflexivity|repeat constructor]).
  split; [exact R|]. split; [|split; [reflexivity|]].
  - repeat constructor; cbn; lia.
  - intros S c d s debug. cbn [det]. unfold det_big. unfold bind at 1.
    rewrite mclone_id; [|exact R|reflexivity]. vm_compute. reflexivity.
Qed.
Print Assumptions C51_i32_refuted.
