(** * MxLink.v - row operations of DetLoop.v as operations on matrices of the
    Mathematical Components library. *)
From Coq Require Import List Arith Bool Lia.
From Verif Require Import Rust Iter Elem VectorM MatIterM MatrixM ArithM OpsM SpecCommon SpecAlg.
From Verif Require Import IterProofs OwnProofs ChunkProofs VecProofs MatProofs AccProofs Sim DetLoop.
Set Warnings "-notation-overridden,-ambiguous-paths".
From mathcomp Require Import all_ssreflect all_algebra.
From Verif Require Import SpecMx.
Set Implicit Arguments.
Unset Strict Implicit.
Unset Printing Implicit Defensive.
Import GRing.Theory.
Local Open Scope ring_scope.

(** Between the comparisons of the two libraries. *)
Lemma eqbE (i j : nat) : Nat.eqb i j = (i == j).
Proof. by case: (Nat.eqb_spec i j) => [->|H]; [rewrite eqxx|apply/esym/eqP]. Qed.
Lemma ltbE (i j : nat) : Nat.ltb i j = (i < j)%N.
Proof. by apply/Nat.ltb_spec0/idP => /ltP. Qed.

Section Ring.
Variable R : comRingType.
Let A := ring_arith R.
Definition mxf n (f : nat -> nat -> R) : 'M[R]_n := \matrix_(i < n, j < n) f i j.

Lemma at2_matf n f i j : (i < n)%N -> (j < n)%N -> at2 A (mat n n f) i j = f i j.
Proof. by move=> /ltP Hi /ltP Hj; rewrite at2_mat. Qed.
Lemma mx_of_mat n k f : (k <= n)%N -> mx_of k (mat n n f) = mxf k f.
Proof. by move=> H; apply/matrixP=> i j; rewrite !mxE at2_matf // (leq_trans (ltn_ord _) H). Qed.
Lemma mxf_ext n f g : (forall i j, (i < n)%coq_nat -> (j < n)%coq_nat -> f i j = g i j) -> mxf n f = mxf n g.
Proof. by move=> H; apply/matrixP=> i j; rewrite !mxE H //; apply/ltP. Qed.
Lemma mat_of n (m : list (list R)) : rect n n m -> m = mat n n (at2 A m).
Proof. by move=> H; rewrite mat_at2. Qed.
Lemma mx_of_inj n (a b : list (list R)) : rect n n a -> rect n n b -> mx_of n a = mx_of n b -> a = b.
Proof.
move=> Ra Rb E. rewrite (mat_of Ra) (mat_of Rb). apply: mat_ext' => i j /ltP Hi /ltP Hj.
by move/matrixP: E => /(_ (Ordinal Hi) (Ordinal Hj)); rewrite !mxE.
Qed.

(** Sums. *)
Lemma sum_big n (f : nat -> R) : sum A n f = \sum_(k < n) f k.
Proof.
rewrite /sum. have G: forall k lo z, List.fold_left (fun acc k => acc + f k) (List.seq lo k) z = z + \sum_(lo <= i < lo + k) f i.
  elim=> [|k IH] lo z /=; first by rewrite addn0 big_geq // addr0.
  rewrite IH addSnnS [in RHS]big_ltn; last by rewrite -addSnnS ltnS leq_addr.
  by rewrite addrA -addSnnS.
rewrite (G n 0%N) /= add0r add0n. by rewrite big_mkord.
Qed.
Lemma prod_big n (f : nat -> R) : List.fold_left (fun acc k => acc * f k) (List.seq 0 n) 1 = \prod_(k < n) f k.
Proof.
have G: forall k lo z, List.fold_left (fun acc k => acc * f k) (List.seq lo k) z = z * \prod_(lo <= i < lo + k) f i.
  elim=> [|k IH] lo z /=; first by rewrite addn0 big_geq // mulr1.
  rewrite IH addSnnS [in RHS]big_ltn; last by rewrite -addSnnS ltnS leq_addr.
  by rewrite mulrA -addSnnS.
by rewrite (G n 0%N) /= mul1r add0n big_mkord.
Qed.

(** The textbook operations. *)
Lemma mx_mul n a b : mx_of n (m_mul A n n n a b) = mx_of n a *m mx_of n b.
Proof.
rewrite /m_mul mx_of_mat //. apply/matrixP=> i j. rewrite !mxE sum_big. apply: eq_bigr => k _. by rewrite !mxE.
Qed.
Lemma mx_id n : mx_of n (m_id A n) = 1%:M.
Proof.
rewrite /m_id mx_of_mat //. apply/matrixP=> i j. rewrite !mxE eqbE. by rewrite -val_eqE /=; case: (_ == _).
Qed.
Lemma mx_tr n a : mx_of n (m_tr A n n a) = (mx_of n a)^T.
Proof. by rewrite /m_tr mx_of_mat //; apply/matrixP=> i j; rewrite !mxE. Qed.
Lemma mx_scale n a x : mx_of n (m_scale A n n a x) = x *: mx_of n a.
Proof. by rewrite /m_scale mx_of_mat //; apply/matrixP=> i j; rewrite !mxE /= mulrC. Qed.
Lemma mx_neg n a : mx_of n (m_neg A n n a) = - mx_of n a.
Proof. by rewrite /m_neg mx_of_mat //; apply/matrixP=> i j; rewrite !mxE. Qed.

(** Row operations. *)
Lemma elim_lin n i j x f M : (i < n)%N -> i != j ->
  forall g, mxf n g *m M = mxf n f -> mxf n (f_elim A i j x g) *m M = mxf n (f_elim A i j x f).
Proof.
move=> Hi Hij g E. apply/matrixP=> a b. rewrite !mxE. move/matrixP: E => E.
have Ea := E a b. have Ei := E (Ordinal Hi) b. rewrite !mxE /= in Ea Ei.
rewrite /f_elim eqbE. case: ifP => Hj; last first.
  rewrite -Ea. apply: eq_bigr => k _. by rewrite !mxE /f_elim eqbE Hj.
rewrite /= -Ea -Ei mulr_suml -sumrB. apply: eq_bigr => k _. rewrite !mxE /f_elim eqbE Hj /=.
by rewrite mulrBl -!mulrA (mulrC x).
Qed.
Lemma scale_lin n i x f M : forall g, mxf n g *m M = mxf n f -> mxf n (f_scale A i x g) *m M = mxf n (f_scale A i x f).
Proof.
move=> g E. apply/matrixP=> a b. rewrite !mxE. move/matrixP: E => E.
have Ea := E a b. rewrite !mxE in Ea.
rewrite /f_scale eqbE. case: ifP => Hi; last first.
  rewrite -Ea. apply: eq_bigr => k _. by rewrite !mxE /f_scale eqbE Hi.
rewrite /= -Ea mulr_suml. apply: eq_bigr => k _. rewrite !mxE /f_scale eqbE Hi /=. by rewrite -!mulrA (mulrC x).
Qed.
Lemma det_elim n i j x f : (i < n)%N -> (j < n)%N -> i != j -> \det (mxf n (f_elim A i j x f)) = \det (mxf n f).
Proof.
move=> Hi Hj Hij. pose g a b := if a == j then f i b else f a b.
have E : \det (mxf n (f_elim A i j x f)) = 1 * \det (mxf n f) + (- x) * \det (mxf n g).
  apply: (@determinant_multilinear _ _ _ _ _ (Ordinal Hj)).
  - apply/rowP=> b. rewrite !mxE /f_elim /g eqbE eqxx /= mul1r mulNr mulrC. by [].
  - apply/matrixP=> a b. rewrite !mxE /f_elim eqbE /=. case: eqP => // H. 
    by move: (neq_lift (Ordinal Hj) a); rewrite -val_eqE /= H eqxx.
  - apply/matrixP=> a b. rewrite !mxE /f_elim /g eqbE /=. case: eqP => // H. 
    by move: (neq_lift (Ordinal Hj) a); rewrite -val_eqE /= H eqxx.
rewrite E mul1r (@determinant_alternate _ _ (mxf n g) (Ordinal Hi) (Ordinal Hj)) ?mulr0 ?addr0 //.
by move=> b; rewrite !mxE /g /= eqxx (negbTE Hij).
Qed.

(** The minor. *)
Lemma skip_bump i a : skip i a = bump i a.
Proof. by rewrite /skip /bump ltbE; case: ltnP => H /=; rewrite ?add0n // addnC. Qed.
Lemma mxf_minor n f (i j : 'I_n.+1) : mxf n (fun a b => f (skip i a) (skip j b)) = row' i (col' j (mxf n.+1 f)).
Proof. by apply/matrixP=> a b; rewrite !mxE !skip_bump. Qed.

(** Upper triangular. *)
Lemma det_upper n f : (forall i j, (j < i)%N -> (i < n)%N -> f i j = 0) -> \det (mxf n f) = \prod_(i < n) f i i.
Proof.
move=> H. rewrite -det_tr det_trig.
  by apply: eq_bigr => i _; rewrite !mxE.
by apply/is_trig_mxP => i j Hij; rewrite !mxE H.
Qed.
End Ring.
