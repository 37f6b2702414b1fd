(** * MxSpec.v - links between the list-level specification of determinants ([minor], [m_det])
    and Mathematical Components. *)
From Coq Require Import List Arith Bool Lia.
From Verif Require Import Rust Elem SpecCommon SpecAlg Algebra DetLoop SpecMx MxLink.
Set Warnings "-notation-overridden,-ambiguous-paths".
From mathcomp Require Import all_ssreflect all_algebra.
Set Implicit Arguments.
Unset Strict Implicit.
Unset Printing Implicit Defensive.
Import GRing.Theory.
Local Open Scope ring_scope.

Lemma nth_del {X} i (l : list X) x a : List.nth a (del i l) x = List.nth (skip i a) l x.
Proof.
rewrite /del /skip ltbE. elim: i l a => [|i IH] l a.
  by case: l => [|y l] /=; case: a => [|a] //=; rewrite ?Nat.add_1_r //; case: a.
case: l => [|y l] /=; first by case: a => [|a]; case: (_ < _)%N; rewrite ?Nat.add_1_r.
by case: a => [|a] //=; rewrite IH ltnS; case: (_ < _)%N.
Qed.
Section Ring.
Variable R : comRingType.
Let A := ring_arith R.
Lemma at2_minor i j (m : list (list R)) a b : at2 A (minor i j m) a b = at2 A m (skip i a) (skip j b).
Proof.
rewrite /at2 /minor. rewrite -(nth_del i m nil a) -(nth_del j).
rewrite [X in List.nth b X](_ : _ = del j (List.nth a (del i m) nil)) //.
have -> : nil = del j (@nil R) by case: j. 
by rewrite List.map_nth; case: j.
Qed.
Lemma mx_minor n (m : list (list R)) (i j : 'I_n.+1) : mx_of n (minor i j m) = row' i (col' j (mx_of n.+1 m)).
Proof. by apply/matrixP=> a b; rewrite !mxE at2_minor !skip_bump. Qed.
Lemma sign_pow k : sign A k = (-1) ^+ k.
Proof.
rewrite /sign -signr_odd. have -> : Nat.even k = ~~ odd k.
  have G : Nat.even k = ~~ odd k /\ Nat.even k.+1 = odd k; last by case: G.
  elim: k => [|k [H1 H2]] //. split; first by rewrite H2 /= negbK. by rewrite /= in H1 *.
by case: (odd k).
Qed.
Lemma m_det_mx n (m : list (list R)) : m_det A n m = \det (mx_of n m).
Proof.
elim: n m => [|n IH] m; first by rewrite det_mx00.
rewrite (expand_det_row _ ord0) [m_det _ _ _]/= sum_big. apply: eq_bigr => j _.
by rewrite !mxE IH sign_pow (mx_minor m ord0 j) /cofactor add0n.
Qed.
Lemma cofactor_minor n (m : list (list R)) (i j : 'I_n.+1) :
  cofactor (mx_of n.+1 m) i j = sign A (i + j) * m_det A n (minor i j m).
Proof. by rewrite m_det_mx sign_pow mx_minor. Qed.
End Ring.
