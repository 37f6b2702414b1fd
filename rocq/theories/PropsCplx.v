(** * PropsCplx.v - theorems for C79: determinant, inverse and division for matrices of complex
    numbers over every ordered field. *)
From Coq Require Import List Arith Bool Lia.
From Verif Require Import Rust Iter Elem VectorM MatIterM MatrixM ArithM OpsM CplxM SpecCommon SpecAlg Harness.
From Verif Require Import Sim Algebra PropsAlg PropsCross DetLoop SpecMx MxLink MxDet MxSpec PropsDet PropsInv PropsConj.
Set Warnings "-notation-overridden,-ambiguous-paths".
From mathcomp Require Import all_ssreflect all_algebra.
Set Implicit Arguments.
Unset Strict Implicit.
Unset Printing Implicit Defensive.
Import GRing.Theory Num.Theory.
Local Open Scope ring_scope.

(** ** The field of complex numbers over an ordered field (proof device: the theorems below speak
    of [complex R] and of the list vocabulary only) *)
Section Field.
Variable R : realFieldType.
Local Notation C := (complex R).
Local Notation A := (c_arith (ring_arith R)).
Definition c_pair (x : C) : R * R := (re x, im x).
Definition pair_c (x : R * R) : C := Complex x.1 x.2.
Lemma c_pairK : cancel c_pair pair_c. Proof. by case. Qed.
Definition c_eqMixin := CanEqMixin c_pairK.
Canonical c_eqType := EqType C c_eqMixin.
Definition c_choiceMixin := CanChoiceMixin c_pairK.
Canonical c_choiceType := ChoiceType C c_choiceMixin.
Lemma r_laws : ring_laws (ring_arith R).
Proof.
by split; [split|..]; cbn; intros; rewrite ?addr0 ?add0r ?mul0r ?mulr0 ?mul1r ?mulr1 ?addrA ?mulrA ?mulrDl ?mulrDr ?subrr ?addrN //; exact: addrC.
Qed.
Lemma r_comm : mul_comm (ring_arith R).
Proof. move=> x y. exact: mulrC. Qed.
Lemma cl : ring_laws A. Proof. exact: c_ring r_laws r_comm. Qed.
Lemma cc : mul_comm A. Proof. exact: c_comm r_laws r_comm. Qed.
Definition c_add : C -> C -> C := a_add A.
Definition c_mul : C -> C -> C := a_mul A.
Lemma cL : semiring A. Proof. exact: rg_semi cl. Qed.
Lemma c_addA : associative c_add. Proof. move=> x y z. exact: (sr_add_assoc _ cL). Qed.
Lemma c_addC : commutative c_add. Proof. move=> x y. exact: (sr_add_comm _ cL). Qed.
Lemma c_add0 : left_id (a_zero A) c_add. Proof. move=> x. exact: (sr_add_0 _ cL). Qed.
Lemma c_addN : left_inverse (a_zero A) (a_neg A) c_add. Proof. move=> x. rewrite c_addC. exact: (rg_neg _ cl). Qed.
Definition c_zmodMixin := ZmodMixin c_addA c_addC c_add0 c_addN.
Canonical c_zmodType := ZmodType C c_zmodMixin.
Lemma c_mulA : associative c_mul. Proof. move=> x y z. exact: (sr_mul_assoc _ cL). Qed.
Lemma c_mulC : commutative c_mul. Proof. move=> x y. exact: cc. Qed.
Lemma c_mul1 : left_id (a_one A) c_mul. Proof. move=> x. exact: (sr_mul_1_l _ cL). Qed.
Lemma c_mulDl : left_distributive c_mul +%R. Proof. move=> x y z. exact: (sr_distr_r _ cL). Qed.
Lemma c_one0 : a_one A != 0 :> C. Proof. apply/eqP=> - [] /eqP. by rewrite oner_eq0. Qed.
Definition c_ringMixin := ComRingMixin c_mulA c_mulC c_mul1 c_mulDl c_one0.
Canonical c_ringType := RingType C c_ringMixin.
Canonical c_comRingType := ComRingType C c_mulC.
Definition c_nrm (x : C) : R := re x * re x + im x * im x.
Definition c_inv (x : C) : C := Complex (re x / c_nrm x) (- im x / c_nrm x).
Lemma c_nrm0 (x : C) : (c_nrm x == 0) = (x == 0).
Proof.
apply/idP/eqP=> [|->]; last by rewrite /c_nrm /= !mul0r addr0.
rewrite /c_nrm -!expr2 paddr_eq0 ?sqr_ge0 // !sqrf_eq0 => /andP[/eqP E1 /eqP E2].
by case: x E1 E2 => a b /= -> ->.
Qed.
Lemma c_mulV : GRing.Field.axiom c_inv.
Proof.
move=> x; rewrite -c_nrm0 => H. apply: etrans (_ : c_mul _ _ = _) => //. rewrite /c_mul /c_inv /=.
congr Complex.
- rewrite -mulrAC -(mulrAC (- im x)) -mulrBl mulNr opprK -/(c_nrm x). exact: mulfV.
- by rewrite -mulrAC -(mulrAC (- im x)) -mulrDl mulNr [im x * _]mulrC subrr mul0r.
Qed.
Lemma c_inv0 : c_inv 0 = 0.
Proof. by rewrite /c_inv /= oppr0 !mul0r. Qed.
Definition c_unitRingMixin := FieldUnitMixin c_mulV c_inv0.
Canonical c_unitRingType := UnitRingType C c_unitRingMixin.
Canonical c_comUnitRingType := [comUnitRingType of C].
Lemma c_field_axiom : GRing.Field.mixin_of [unitRingType of C]. Proof. by []. Qed.
Definition c_fieldIdomainMixin := FieldIdomainMixin c_field_axiom.
Canonical c_idomainType := IdomainType C c_fieldIdomainMixin.
Canonical c_fieldType := FieldType C c_field_axiom.
Lemma c_arithE : ring_arith c_fieldType = A.
Proof. by []. Qed.
Lemma c_field (S : Type) (o : ops S R) : exact_field o -> exact_field (complex_ops o : ops S c_fieldType).
Proof.
move=> [[E1 E2 E3] D Z]. split.
- rewrite c_arithE. exact: c_exact.
- move=> x y s. rewrite -c_nrm0 => H. cbn. rewrite /bind !(ex_mul _ _ E1) !(ex_add _ _ E1) !(ex_mul _ _ E1) !(ex_add _ _ E1) !(ex_mul _ _ E1) E2 !D //.
  congr (Ok _, s). apply: etrans (_ : _ = c_mul x (c_inv y)) _ => //. rewrite /c_mul /c_inv /=. congr Complex; rewrite -/(c_nrm y) /=.
  + by rewrite mulrDl mulNr mulrN opprK !mulrA.
  + by rewrite mulrBl mulNr mulrN [RHS]addrC !mulrA.
- move=> x. by rewrite /= !Z; case: x => a b; rewrite -[RHS]/((a, b) == (0, 0)).
Qed.

(** Conjugation commutes with the determinant. *)
Lemma cj_minor i j (m : list (list C)) : minor i j (m_cj (ring_arith R) m) = m_cj (ring_arith R) (minor i j m).
Proof.
have D : forall X Y (f : X -> Y) k (l : list X), del k (List.map f l) = List.map f (del k l).
  move=> X Y f k l. by rewrite /del firstn_map skipn_map map_app.
rewrite /minor /m_cj D !map_map. apply: map_ext => r. exact: D.
Qed.
Lemma cj_sign k : cj (ring_arith R) (sign A k) = sign A k.
Proof. rewrite /sign. by case: Nat.even; rewrite /cj /= ?oppr0. Qed.
Lemma cj_det n (m : list (list C)) : m_det A n (m_cj (ring_arith R) m) = cj (ring_arith R) (m_det A n m).
Proof.
elim: n m => [|n IH] m; first by rewrite /= /cj /= oppr0.
cbn [m_det]. rewrite (cj_sum _ r_laws r_comm). apply: sum_ext => j Hj.
rewrite (at2_cj _ r_laws r_comm) cj_minor IH.
by rewrite -{1}(cj_sign j) -!(cj_mul _ r_laws r_comm).
Qed.
End Field.

(** ** C79 *)
(** [x] is the two-sided inverse of [m] (complex numbers over [R]). *)
Definition c_inverse (R : realFieldType) (n : nat) (m x : list (list (complex R))) : Prop :=
  let A := c_arith (ring_arith R) in
  rect n n x /\ m_mul A n n n m x = m_id A n /\ m_mul A n n n x m = m_id A n.
(** The leading [k] x [k] block. *)
Definition c_lead (R : realFieldType) (k : nat) (m : list (list (complex R))) := mat k k (at2 (c_arith (ring_arith R)) m).

Theorem C79_determinant :
  forall (S : Type) (R : realFieldType) (c : cfg) (d : ety S (complex R)) (o : ops S R), exact_field o ->
  forall n m (s : S), (0 < n)%N -> (2 * n <= W c)%N -> rect n n m ->
  det c d (complex_ops o) n m s = (Ok (m_det (c_arith (ring_arith R)) n m), s).
Proof. move=> S R c d o HF n m s Hn HW Rm. exact: (C43_determinant_laplace d (c_field HF)). Qed.
Print Assumptions C79_determinant.
Theorem C79_conjugate_determinant :
  forall (S : Type) (R : realFieldType) (c : cfg) (d : ety S (complex R)) (o : ops S R), exact_field o ->
  forall n m (s : S), (0 < n)%N -> (2 * n <= W c)%N -> rect n n m ->
  (x <- mconjugate c d o n n m ;; det c d (complex_ops o) n x) s
  = (y <- det c d (complex_ops o) n m ;; ret (Complex (re y) (- im y))) s.
Proof.
move=> S R c d o HF n m s Hn HW Rm. have HW' : (n < W c)%coq_nat by move/leP: HW; nlia.
rewrite (bind_ok (conj_m o _ (xf_ring HF) c d n n m s Rm HW' HW')).
rewrite (bind_ok (C79_determinant d HF s Hn HW Rm)) C79_determinant //; last exact: m_cj_rect.
by rewrite cj_det.
Qed.
Print Assumptions C79_conjugate_determinant.
Theorem C79_inverse_small :
  forall (S : Type) (R : realFieldType) (c : cfg) (d : ety S (complex R)) (o : ops S R), exact_field o ->
  forall n m (s : S), (1 <= n <= 3)%N -> rect n n m ->
  let A := c_arith (ring_arith R) in
  (m_det A n m <> a_zero A -> exists x, inverse c d (complex_ops o) n m s = (Ok (Some x), s) /\ c_inverse n m x) /\
  (m_det A n m = a_zero A -> inverse c d (complex_ops o) n m s = (Ok None, s)).
Proof.
move=> S R c d o HF n m s Hn Rm A. have [H1 H2] := C47_inverse_small c d (c_field HF) s Hn Rm.
rewrite /A -c_arithE m_det_mx. split=> [/eqP/H1 //|]; exact: H2.
Qed.
Print Assumptions C79_inverse_small.
Theorem C79_inverse_big :
  forall (S : Type) (R : realFieldType) (c : cfg) (d : ety S (complex R)) (o : ops S R), exact_field o ->
  forall n m (s : S), (4 <= n)%N -> rect n n m ->
  let A := c_arith (ring_arith R) in
  let regular := forall k, (1 <= k <= n)%N -> m_det A k (c_lead k m) <> a_zero A in
  (regular -> exists x, inverse c d (complex_ops o) n m s = (Ok (Some x), s) /\ c_inverse n m x) /\
  (~ regular -> inverse c d (complex_ops o) n m s = (Ok None, s)).
Proof.
move=> S R c d o HF n m s Hn Rm A regular.
have E : regular <-> (forall k, (1 <= k <= n)%N -> \det (mx_of k (m : list (list (c_fieldType R)))) != 0).
  have K k : m_det A k (c_lead k m) = \det (mx_of k (m : list (list (c_fieldType R)))).
    rewrite /A -c_arithE m_det_mx. congr (\det _). rewrite /c_lead mx_of_mat //. 
  split=> H k Hk; [apply/eqP; rewrite -K; exact: H|rewrite K; apply/eqP; exact: H].
have HI := C50_some_iff_leading_minors c d (c_field HF) s Hn Rm.
split=> H.
- have [x Ex] := HI.2 (E.1 H). case: (C48_inverse_big_sound c d (c_field HF) s Hn Rm) => [//|E']. by rewrite E' in Ex.
- case: (C48_inverse_big_sound c d (c_field HF) s Hn Rm) => [[x [Ex _]]|//]. case: H. apply/E/HI. by exists x.
Qed.
Print Assumptions C79_inverse_big.
(** Dividing by a non-zero complex scalar: multiplying the quotient by it gives the matrix back. *)
Theorem C79_divided_by_scalar :
  forall (S : Type) (R : realFieldType) (c : cfg) (d : ety S (complex R)) (o : ops S R), exact_field o ->
  forall row col m y (s : S), rect row col m -> (row < W c)%N -> (col < W c)%N -> y <> Complex 0 0 ->
  exists q, mscale c d row col (o_div (complex_ops o)) (o_clone (complex_ops o)) m y s = (Ok q, s) /\
    m_scale (c_arith (ring_arith R)) row col q y = m.
Proof.
move=> S R c d o HF row col m y s Rm /ltP H1 /ltP H2 Hy. have HC := c_field HF.
have Hy' : (y : c_fieldType R) != 0 by apply/eqP.
exists (List.map (List.map (fun e : c_fieldType R => e / y)) m). split.
  apply: (mscale_pure c d (complex_ops o) _ (xf_ring HC) row col _ (fun e : c_fieldType R => e / y)) => //.
  move=> e s0. by rewrite (xf_div HC).
rewrite -c_arithE /m_scale. rewrite -[RHS](mat_at2 (ring_arith (c_fieldType R)) row col m Rm). apply: mat_ext' => i j Hi Hj.
have [Lm Fm] := Rm.
have Q : at2 (ring_arith (c_fieldType R)) (List.map (List.map (fun e : c_fieldType R => e / y)) m) i j = at2 (ring_arith (c_fieldType R)) m i j / y.
  rewrite /at2. have E1 : List.nth i (List.map (List.map (fun e : c_fieldType R => e / y)) m) nil = List.map (fun e : c_fieldType R => e / y) (List.nth i m nil).
    exact: (List.map_nth (List.map (fun e : c_fieldType R => e / y)) m nil i).
  rewrite E1. have -> : a_zero (ring_arith (c_fieldType R)) = 0 / y by rewrite mul0r.
  rewrite {2}mul0r. exact: (List.map_nth (fun e : c_fieldType R => e / y)).
rewrite Q /=. exact: (mulfVK Hy').
Qed.
Print Assumptions C79_divided_by_scalar.
(** The inverse of the conjugate is the conjugate of the inverse. *)
Lemma c_inverse_unique (R : realFieldType) n (m x y : list (list (complex R))) : rect n n m -> c_inverse n m x -> c_inverse n m y -> x = y.
Proof.
move=> Rm [Rx [E1 E2]] [Ry [E3 E4]]. 
apply: (@mx_of_inj (c_fieldType R) n x y Rx Ry).
move/(congr1 (mx_of n (R := c_fieldType R))): E2. move/(congr1 (mx_of n (R := c_fieldType R))): E3.
rewrite -c_arithE !mx_mul mx_id => E3 E2. by rewrite -[LHS]mulmx1 -E3 mulmxA E2 mul1mx.
Qed.
Lemma c_inverse_cj (R : realFieldType) n (m x : list (list (complex R))) :
  c_inverse n m x -> c_inverse n (m_cj (ring_arith R) m) (m_cj (ring_arith R) x).
Proof.
have L := r_laws R. have K := r_comm (R := R).
have M : forall a b, m_mul (c_arith (ring_arith R)) n n n (m_cj (ring_arith R) a) (m_cj (ring_arith R) b) = m_cj (ring_arith R) (m_mul (c_arith (ring_arith R)) n n n a b).
  move=> a b. rewrite /m_mul m_cj_mat. apply: mat_ext' => i j _ _. rewrite (cj_sum _ L K). apply: sum_ext => k _. by rewrite !(at2_cj _ L K) (cj_mul _ L K).
have I : m_cj (ring_arith R) (m_id (c_arith (ring_arith R)) n) = m_id (c_arith (ring_arith R)) n.
  rewrite /m_id m_cj_mat. apply: mat_ext' => i j _ _. by case: Nat.eqb; rewrite /cj /= oppr0.
move=> [Rx [E1 E2]]. split; first exact: m_cj_rect. by rewrite !M E1 E2.
Qed.
Theorem C79_conjugate_inverse :
  forall (S : Type) (R : realFieldType) (c : cfg) (d : ety S (complex R)) (o : ops S R), exact_field o ->
  forall n m (s : S), (0 < n)%N -> (2 * n <= W c)%N -> rect n n m ->
  (x <- mconjugate c d o n n m ;; inverse c d (complex_ops o) n x) s
  = (y <- inverse c d (complex_ops o) n m ;;
     match y with None => ret None | Some y => z <- mconjugate c d o n n y ;; ret (Some z) end) s.
Proof.
move=> S R c d o HF n m s Hn HW Rm. have HW' : (n < W c)%coq_nat by move/leP: HW; nlia.
have L := r_laws R. have K := r_comm (R := R). have HE := xf_ring HF.
rewrite (bind_ok (conj_m o _ HE c d n n m s Rm HW' HW')). set m' := m_cj _ m.
have Rm' : rect n n m' by exact: m_cj_rect.
have Z : forall x : complex R, cj (ring_arith R) x = a_zero (c_arith (ring_arith R)) <-> x = a_zero (c_arith (ring_arith R)).
  move=> [a b]; split=> - [E1 E2]; rewrite /cj /= E1 ?E2 ?oppr0 //. by move/eqP: E2; rewrite oppr_eq0 => /eqP ->.
have F : forall x x', inverse c d (complex_ops o) n m s = (Ok (Some x), s) -> c_inverse n m x -> inverse c d (complex_ops o) n m' s = (Ok (Some x'), s) -> c_inverse n m' x' ->
  inverse c d (complex_ops o) n m' s = (y <- inverse c d (complex_ops o) n m ;; match y with None => ret None | Some y => z <- mconjugate c d o n n y ;; ret (Some z) end) s.
  move=> x x' E1 I1 E2 I2. rewrite (bind_ok E1) (bind_ok (conj_m o _ HE c d n n x s (proj1 I1) HW' HW')) E2.
  by rewrite (c_inverse_unique Rm' I2 (c_inverse_cj I1)).
case: (leqP n 3) => H3.
- have H13 : (1 <= n <= 3)%N by rewrite Hn.
  have [A1 A2] := C79_inverse_small c d HF s H13 Rm. have [B1 B2] := C79_inverse_small c d HF s H13 Rm'.
  case: (eqVneq (m_det (c_arith (ring_arith R)) n m) (a_zero (c_arith (ring_arith R)))) => E.
  + rewrite (bind_ok (A2 E)) B2 //. by rewrite /m' cj_det; apply/Z.
  + have [x [E1 I1]] := A1 (elimN eqP E).
    have [x' [E2 I2]] : exists x, inverse c d (complex_ops o) n m' s = (Ok (Some x), s) /\ c_inverse n m' x.
      apply: B1. rewrite /m' cj_det => /Z. exact/eqP.
    exact: F E1 I1 E2 I2.
- have [A1 A2] := C79_inverse_big c d HF s H3 Rm. have [B1 B2] := C79_inverse_big c d HF s H3 Rm'.
  have D k : m_det (c_arith (ring_arith R)) k (c_lead k m') = cj (ring_arith R) (m_det (c_arith (ring_arith R)) k (c_lead k m)).
    rewrite -cj_det. congr m_det. rewrite /c_lead m_cj_mat. apply: mat_ext' => i j _ _. by rewrite (at2_cj _ L K).
  case: (C48_inverse_big_sound c d (c_field HF) s H3 Rm) => [[x [E1 I1]]|E1].
  + have [x' [E2 I2]] : exists x, inverse c d (complex_ops o) n m' s = (Ok (Some x), s) /\ c_inverse n m' x.
      apply: B1 => k Hk. rewrite D => /Z. 
      have H := (C50_some_iff_leading_minors c d (c_field HF) s H3 Rm).1 (ex_intro _ x E1) k Hk.
      rewrite -c_arithE m_det_mx /c_lead mx_of_mat //. exact/eqP.
    exact: F E1 I1 E2 I2.
  + rewrite (bind_ok E1). apply: B2 => H. have [|x [Ex _]] := A1; last by rewrite Ex in E1.
    move=> k Hk /Z. rewrite -D. exact: H.
Qed.
Print Assumptions C79_conjugate_inverse.
(** [[i, 1], [1, i]] over the rationals: determinant -2; its inverse. *)
Example C79_ex (S : Type) (c : cfg) (d : ety S (complex rat)) (s : S) :
  let i := Complex (0 : rat) 1 in let one := Complex (1 : rat) 0 in
  det c d (complex_ops (field_ops rat_fieldType)) 2 [:: [:: i; one]; [:: one; i]] s = (Ok (Complex (-2%:R) 0), s) /\
  exists x, inverse c d (complex_ops (field_ops rat_fieldType)) 2 [:: [:: i; one]; [:: one; i]] s = (Ok (Some x), s).
Proof.
have HW : (4 <= W c)%N by apply/leP; have := wide c; lia.
move=> i one. have R : rect 2 2 [:: [:: i; one]; [:: one; i]] by split=> //; do !constructor.
split; first by rewrite (C79_determinant (R := rat_realFieldType) d (field_ops_exact S rat_fieldType)).
have [H _] := C79_inverse_small (R := rat_realFieldType) c d (field_ops_exact S rat_fieldType) s (isT : (1 <= 2 <= 3)%N) R.
have [|x [E _]] := H; first by move=> [].
by exists x.
Qed.
