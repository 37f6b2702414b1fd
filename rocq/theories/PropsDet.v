(** * PropsDet.v - theorems for C43, C45, C46: determinants and cofactors over every field.
    [\det] is the Leibniz determinant of Mathematical Components. *)
From Coq Require Import List Arith Bool Lia.
From Verif Require Import Rust Iter Elem VectorM MatIterM MatrixM ArithM OpsM SpecCommon SpecAlg Harness.
From Verif Require Import Sim Algebra PropsAlg DetLoop SpecMx MxLink MxDet MxSpec.
Set Warnings "-notation-overridden,-ambiguous-paths".
From mathcomp Require Import all_ssreflect all_algebra.
Set Implicit Arguments.
Unset Strict Implicit.
Unset Printing Implicit Defensive.
Import GRing.Theory.
Local Open Scope ring_scope.

(** Every field as an element type: exact operations, division by zero panics. *)
Definition field_ops {S : Type} (F : fieldType) : ops S F :=
  Ops 0 1 (fun x y : F => ret (x + y)) (fun x y => ret (x - y)) (fun x y => ret (x * y))
    (fun x y => if y == 0 then panic else ret (x / y)) (fun x => ret (- x)) (fun x => x == 0) ret.
Example field_ops_exact (S : Type) (F : fieldType) : exact_field (field_ops (S := S) F).
Proof. by split=> // x y s /negbTE /= ->. Qed.

(** ** C43 *)
(** [2 * n <= W] holds for every size the crate supports ([n <= 32], [W >= 2^16]). *)
Theorem C43_determinant :
  forall (S : Type) (F : fieldType) (c : cfg) (d : ety S F) (o : ops S F), exact_field o ->
  forall n m (s : S), (0 < n)%N -> (2 * n <= W c)%N -> rect n n m ->
  det c d o n m s = (Ok (\det (mx_of n m)), s).
Proof. move=> S F c d o HF n m s Hn /leP HW Rm. exact: det_spec. Qed.
Print Assumptions C43_determinant.
(** The same in the vocabulary of lists: expansion along the first row. *)
Theorem C43_determinant_laplace :
  forall (S : Type) (F : fieldType) (c : cfg) (d : ety S F) (o : ops S F), exact_field o ->
  forall n m (s : S), (0 < n)%N -> (2 * n <= W c)%N -> rect n n m ->
  det c d o n m s = (Ok (m_det (ring_arith F) n m), s).
Proof. move=> S F c d o HF n m s Hn HW Rm. by rewrite C43_determinant // m_det_mx. Qed.
Print Assumptions C43_determinant_laplace.

(** A 4 x 4 matrix with a zero pivot (the code falls back to cofactors). *)
Definition m43 : list (list rat) :=
  [:: [:: 0; 1; 0; 0]; [:: 1; 0; 0; 0]; [:: 0; 0; 1; 0]; [:: 0; 0; 0; 1]].
Example C43_ex (S : Type) (c : cfg) (d : ety S rat) (s : S) :
  det c d (field_ops rat_fieldType) 4 m43 s = (Ok (-1 : rat), s).
Proof.
have HW : (8 <= W c)%N.
  apply/leP. have := wide c. lia.
rewrite (C43_determinant_laplace d (field_ops_exact S rat_fieldType)) //.
split=> //. by do !constructor.
Qed.

(** ** C45 *)
Theorem C45_multiplicative :
  forall (S : Type) (F : fieldType) (c : cfg) (d : ety S F) (o : ops S F), exact_field o ->
  forall n a b (s : S), (0 < n)%N -> (2 * n <= W c)%N -> rect n n a -> rect n n b ->
  (p <- mmul_vv c d o n n n a b ;; det c d o n p) s
  = (x <- det c d o n a ;; y <- det c d o n b ;; ret (x * y)) s.
Proof.
move=> S F c d o HF n a b s Hn HW Ra Rb. have HW' : (n < W c)%coq_nat by move/leP: HW; nlia.
have HE := xf_ring HF. rewrite (bind_ok (mulm c d o _ (ex_semi _ _ HE) n n n a b s Ra Rb HW' HW' HW')).
rewrite C43_determinant //; last exact: mat_rect.
by rewrite /bind !C43_determinant // mx_mul det_mulmx.
Qed.
Print Assumptions C45_multiplicative.

Theorem C45_transpose :
  forall (S : Type) (F : fieldType) (c : cfg) (d : ety S F) (o : ops S F), exact_field o ->
  forall n a (s : S), (0 < n)%N -> (2 * n <= W c)%N -> rect n n a ->
  (t <- mtransposed c d (o_clone o) n n a ;; det c d o n t) s = det c d o n a s.
Proof.
move=> S F c d o HF n a s Hn HW Ra. have HW' : (n < W c)%coq_nat by move/leP: HW; nlia.
have HE := xf_ring HF. rewrite (bind_ok (trm c d (ring_arith F) _ n n a s (ex_clone _ _ (ex_semi _ _ HE)) Ra HW')).
rewrite C43_determinant //; last exact: mat_rect.
by rewrite !C43_determinant // mx_tr det_tr.
Qed.
Print Assumptions C45_transpose.

Theorem C45_identity :
  forall (S : Type) (F : fieldType) (c : cfg) (d : ety S F) (o : ops S F), exact_field o ->
  forall n (s : S), (0 < n)%N -> (2 * n <= W c)%N ->
  (i <- midentity c d o n ;; det c d o n i) s = (Ok 1, s).
Proof.
move=> S F c d o HF n s Hn HW.
have HE := xf_ring HF. rewrite (bind_ok (idm c d o _ (ex_semi _ _ HE) n s)).
rewrite C43_determinant //; last exact: mat_rect.
by rewrite mx_id det1.
Qed.
Print Assumptions C45_identity.

Theorem C45_scale :
  forall (S : Type) (F : fieldType) (c : cfg) (d : ety S F) (o : ops S F), exact_field o ->
  forall n a x (s : S), (0 < n)%N -> (2 * n <= W c)%N -> rect n n a ->
  (p <- mscale c d n n (o_mul o) (o_clone o) a x ;; det c d o n p) s
  = (y <- det c d o n a ;; ret (x ^+ n * y)) s.
Proof.
move=> S F c d o HF n a x s Hn HW Ra. have HW' : (n < W c)%coq_nat by move/leP: HW; nlia.
have HE := xf_ring HF. rewrite (bind_ok (scalem c d o _ (ex_semi _ _ HE) n n a x s Ra HW' HW')).
rewrite C43_determinant //; last exact: mat_rect.
by rewrite /bind !C43_determinant // mx_scale detZ.
Qed.
Print Assumptions C45_scale.

(** The determinant is zero exactly when the matrix has no inverse. *)
Theorem C45_zero_iff_not_invertible :
  forall (S : Type) (F : fieldType) (c : cfg) (d : ety S F) (o : ops S F), exact_field o ->
  forall n a (s : S), (0 < n)%N -> (2 * n <= W c)%N -> rect n n a ->
  (det c d o n a s = (Ok 0, s) <-> ~ exists x, is_inverse n a x).
Proof.
move=> S F c d o HF n a s Hn HW Ra. rewrite C43_determinant //. split.
- move=> [H0] [x [Rx [E _]]]. move/(congr1 (mx_of n)): E. rewrite mx_mul mx_id.
  move/(congr1 determinant). rewrite det_mulmx det1 H0 mul0r => /esym/eqP. by rewrite oner_eq0.
- move=> H. congr (Ok _, _). apply/eqP/negPn/negP=> Hd. apply: H.
  exists (mat n n (fun i j => if insub i is Some i' then if insub j is Some j' then
    ((\det (mx_of n a))^-1 *: \adj (mx_of n a)) (i' : 'I_n) (j' : 'I_n) else 0 else 0)).
  apply: adj_inverse => //; first exact: mat_rect. rewrite mx_of_mat //. apply/matrixP=> i j. by rewrite mxE !valK.
Qed.
Print Assumptions C45_zero_iff_not_invertible.
(** A non-trivial instance: the exchange of two rows has determinant -1, its square 1. *)
Example C45_ex (S : Type) (c : cfg) (d : ety S rat) (s : S) :
  (p <- mmul_vv c d (field_ops rat_fieldType) 4 4 4 m43 m43 ;; det c d (field_ops rat_fieldType) 4 p) s = (Ok (1 : rat), s).
Proof.
have HW : (8 <= W c)%N by apply/leP; have := wide c; lia.
rewrite (C45_multiplicative d (field_ops_exact S rat_fieldType)) //; try by split=> //; do !constructor.
by rewrite /bind !C43_ex.
Qed.

(** ** C46 *)
Theorem C46_cofactor :
  forall (S : Type) (F : fieldType) (c : cfg) (d : ety S F) (o : ops S F), exact_field o ->
  forall n m i j (s : S), (1 < n)%N -> (2 * n <= W c)%N -> rect n n m -> (i < n)%N -> (j < n)%N ->
  OpsM.cofactor c d o n m (i, j) s
  = (Ok ((-1) ^+ (i + j) * \det (mx_of (n - 1) (minor i j m))), s).
Proof.
move=> S F c d o HF [//|n] m i j s Hn /leP HW Rm Hi Hj.
have -> : i = Ordinal Hi by []. have -> : j = Ordinal Hj by [].
rewrite (cofactor_spec d HF) // subn1. by rewrite cofactor_minor sign_pow m_det_mx.
Qed.
Print Assumptions C46_cofactor.
(** Sizes 2, 3 and 4 need only a commutative ring. *)
Theorem C46_cofactor_small :
  forall (S : Type) (R : comRingType) (c : cfg) (d : ety S R) (o : ops S R), exact o (ring_arith R) ->
  forall n m i j (s : S), (1 < n <= 4)%N -> rect n n m -> (i < n)%N -> (j < n)%N ->
  OpsM.cofactor c d o n m (i, j) s
  = (Ok ((-1) ^+ (i + j) * \det (mx_of (n - 1) (minor i j m))), s).
Proof.
move=> S F c d o HE [//|n] m i j s /andP[Hn Hn4] Rm Hi Hj.
have -> : i = Ordinal Hi by []. have -> : j = Ordinal Hj by [].
rewrite (@cofactor_gen _ _ c d o HE) // ?subn1; first by rewrite cofactor_minor sign_pow m_det_mx.
  have := wide c. by nlia.
move=> m' s' R'. case: n Hn Hn4 m' R' {Hi Hj Rm} => [|[|[|[|n]]]] // _ _ m' R'.
- exact: det1_spec.
- exact: det2_spec.
- exact: det3_spec.
Qed.
Print Assumptions C46_cofactor_small.

(** An index outside the matrix panics, in both profiles and for every size. *)
Theorem C46_out_of_range_panics :
  forall (S : Type) (T : Type) (c : cfg) (d : ety S T) (o : ops S T) (A : arith T), exact o A ->
  forall n m i j (s : S), (1 < n)%N -> rect n n m -> (i < W c)%N -> (j < W c)%N -> ~~ ((i < n)%N && (j < n)%N) ->
  OpsM.cofactor c d o n m (i, j) s = (Panic, s).
Proof.
move=> S T c d o A HE [|[|[|n]]] // m i j s _ Rm /ltP Hi /ltP Hj H; last first.
  case: n Rm H => [|n] Rm H; rewrite /OpsM.cofactor /cof3 /cof_big !ltbE (negbTE H) //.
rewrite /OpsM.cofactor /cof2 /bind.
have [[x ->]|->] : (exists x, cof_sign c o i j s = (Ok x, s)) \/ cof_sign c o i j s = (Panic, s); last by [].
  rewrite /cof_sign /bind /usz_add.
  have G k : exists x, (if (k mod 2 =? 0)%nat then ret (o_one o) else o_neg o (o_one o)) s = (Ok x, s).
    case: (_ =? _)%nat; first by exists (o_one o). exists (a_neg A (o_one o)). exact: (ex_neg _ _ HE).
  case: (_ <? _)%nat; first by left; apply: G. case: (debug c); first by right. by left; apply: G.
have Hu k : (k < W c)%coq_nat -> (usz_sub (S := S) c 1 k s = (Panic, s) /\ ~~ (k < 2)%N) \/
  exists a, usz_sub (S := S) c 1 k s = (Ok a, s) /\ (a < 2)%N = (k < 2)%N.
  move=> Hk. rewrite /usz_sub. case: (Nat.leb_spec k 1) => Hk1.
    right. exists (1 - k)%coq_nat. split=> //. have -> : (k < 2)%N by apply/ltP; lia. apply/ltP; lia.
  have Hk2 : (k < 2)%N = false by apply/negbTE/negP => /ltP; lia.
  case: (debug c); first by left; split=> //; rewrite Hk2.
  right. exists (Nat.sub (Nat.add 1 (W c)) k). split=> //. rewrite Hk2. apply/negbTE/negP => /ltP; lia.
have [[-> _]|[a [-> Ea]]] := Hu i Hi; first by [].
have [[-> _]|[b [-> Eb]]] := Hu j Hj; first by [].
rewrite -Ea -Eb in H. rewrite /ix /mindex /vindex /slice_index /bind.
case: Rm => Rl Rc.
case E: (List.nth_error m a) => [r|//]. have Ha : (a < 2)%N.
  apply/ltP. rewrite -[2%nat]Rl. apply/List.nth_error_Some. by rewrite E.
have Lr : length r = 2%nat by move/List.Forall_forall: Rc; apply; apply: List.nth_error_In E.
rewrite /ret /as_slice. case E2: (List.nth_error r b) => [y|//]. have Hb : (b < 2)%N.
  apply/ltP. rewrite -[2%nat]Lr. apply/List.nth_error_Some. by rewrite E2.
by rewrite Ha Hb in H.
Qed.
Print Assumptions C46_out_of_range_panics.

(** Expansion along any row and along any column gives the determinant. *)
Theorem C46_expansion :
  forall (S : Type) (F : fieldType) (c : cfg) (d : ety S F) (o : ops S F), exact_field o ->
  forall n m (s : S), (1 < n)%N -> (2 * n <= W c)%N -> rect n n m ->
  exists cf : nat -> nat -> F,
    (forall i j, (i < n)%N -> (j < n)%N -> OpsM.cofactor c d o n m (i, j) s = (Ok (cf i j), s)) /\
    (forall i, (i < n)%N -> det c d o n m s = (Ok (sum (ring_arith F) n (fun j => at2 (ring_arith F) m i j * cf i j)), s)) /\
    (forall j, (j < n)%N -> det c d o n m s = (Ok (sum (ring_arith F) n (fun i => at2 (ring_arith F) m i j * cf i j)), s)).
Proof.
move=> S F c d o HF [//|n] m s Hn HW Rm.
exists (fun i j => (-1) ^+ (i + j) * \det (mx_of (n.+1 - 1) (minor i j m))). split; [|split].
- by move=> i j Hi Hj; apply: C46_cofactor.
- move=> i Hi. rewrite C43_determinant // (expand_det_row _ (Ordinal Hi)) sum_big.
  congr (Ok _, _). apply: eq_bigr => j _. by rewrite mxE subn1 cofactor_minor sign_pow m_det_mx.
- move=> j Hj. rewrite C43_determinant // (expand_det_col _ (Ordinal Hj)) sum_big.
  congr (Ok _, _). apply: eq_bigr => i _. by rewrite mxE subn1 cofactor_minor sign_pow m_det_mx.
Qed.
Print Assumptions C46_expansion.
Example C46_ex (S : Type) (c : cfg) (d : ety S rat) (s : S) :
  OpsM.cofactor c d (field_ops rat_fieldType) 4 m43 (0, 1)%N s = (Ok (-1 : rat), s) /\
  OpsM.cofactor c d (field_ops rat_fieldType) 4 m43 (4, 0)%N s = (Panic, s).
Proof.
have HW := wide c. have HW' : (8 <= W c)%N by apply/leP; lia.
have R : rect 4 4 m43 by split=> //; do !constructor. split.
- rewrite (C46_cofactor d (field_ops_exact S rat_fieldType)) // -m_det_mx. by vm_compute.
- by rewrite (C46_out_of_range_panics d (xf_ring (field_ops_exact S rat_fieldType))) //; apply/leP; lia.
Qed.
