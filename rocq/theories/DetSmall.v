(** * DetSmall.v - the closed determinant formulas of size 1 to 3 equal the expansion along the first row. *)
From Coq Require Import List Arith Bool Lia Ring.
From Verif Require Import Rust Elem SpecCommon SpecAlg PropsCross.
Import ListNotations.

Section Pure.
Context {T : Type} (A : arith T) (L : ring_laws A) (C : mul_comm A).
Add Ring TR : (to_ring_theory A L C).
Lemma rect_cons {X} r c (m : list (list X)) : rect (Datatypes.S r) c m -> exists v m', m = v :: m' /\ length v = c /\ rect r c m'.
Proof.
  intros [H1 H2]. destruct m as [|v m']; [discriminate|]. inversion H2; subst. exists v, m'. repeat split; auto.
Qed.
Lemma rect_nil {X} c (m : list (list X)) : rect 0 c m -> m = [].
Proof. intros [H _]. now destruct m. Qed.
Ltac shape :=
  repeat match goal with
  | H : rect (Datatypes.S _) _ _ |- _ => apply rect_cons in H; destruct H as (? & ? & -> & ? & ?)
  | H : rect 0 _ _ |- _ => apply rect_nil in H; subst
  end;
  repeat match goal with
  | H : length ?v = Datatypes.S _ |- _ => destruct v; [discriminate H|cbn in H; apply Nat.succ_inj in H]
  | H : length ?v = 0 |- _ => destruct v; [clear H|discriminate H]
  end.
Lemma det1_laplace m : rect 1 1 m -> det_1 A m = m_det A 1 m.
Proof. intros. shape. unfold det_1, det_2, det_3, m_det, sum, minor, del, sign, at2. cbn [seq fold_left nth map firstn skipn app Nat.add Nat.even]. ring. Qed.
Lemma det2_laplace m : rect 2 2 m -> det_2 A m = m_det A 2 m.
Proof. intros. shape. unfold det_1, det_2, det_3, m_det, sum, minor, del, sign, at2. cbn [seq fold_left nth map firstn skipn app Nat.add Nat.even]. ring. Qed.
Lemma det3_laplace m : rect 3 3 m -> det_3 A m = m_det A 3 m.
Proof. intros. shape. unfold det_1, det_2, det_3, m_det, sum, minor, del, sign, at2. cbn [seq fold_left nth map firstn skipn app Nat.add Nat.even]. ring. Qed.
End Pure.

