(** * PropsInv.v - theorems for C47 - C50: matrix inversion over every field. *)
From Coq Require Import List Arith Bool Lia.
From Verif Require Import Rust Iter Elem VectorM MatIterM MatrixM ArithM OpsM SpecCommon SpecAlg Harness.
From Verif Require Import Sim Algebra PropsAlg DetLoop SpecMx MxLink MxDet MxSpec PropsDet.
Set Warnings "-notation-overridden,-ambiguous-paths".
From mathcomp Require Import all_ssreflect all_algebra.
Set Implicit Arguments.
Unset Strict Implicit.
Unset Printing Implicit Defensive.
Import GRing.Theory.
Local Open Scope ring_scope.

(** [inverse()] returns normally: [Some] of the inverse, when the determinant is not zero;
    [None] when it is zero.  (With a zero divisor [exact_field] promises nothing, so the
    code divides by non-zero elements only.) *)
Theorem C47_inverse_small :
  forall (S : Type) (F : fieldType) (c : cfg) (d : ety S F) (o : ops S F), exact_field o ->
  forall n m (s : S), (1 <= n <= 3)%N -> rect n n m ->
  (\det (mx_of n m) != 0 -> exists x, inverse c d o n m s = (Ok (Some x), s) /\ is_inverse n m x) /\
  (\det (mx_of n m) = 0 -> inverse c d o n m s = (Ok None, s)).
Proof.
move=> S F c d o HF n m s Hn Rm. have [[x|] [-> H]] := inverse_small c d HF s Hn Rm; split.
- move=> _. by exists x; case: H.
- move=> H0. case: H. by rewrite H0 eqxx.
- by rewrite H eqxx.
- by [].
Qed.
Print Assumptions C47_inverse_small.
Definition m47 : list (list rat) := [:: [:: 0; 1; 1]; [:: 1; 0; 1]; [:: 1; 1; 0]].
Example C47_ex : rect 3 3 m47 /\ \det (mx_of 3 m47) != 0.
Proof. split; first by split=> //; do !constructor. by rewrite -m_det_mx. Qed.

(** ** C48 *)
Theorem C48_inverse_big_sound :
  forall (S : Type) (F : fieldType) (c : cfg) (d : ety S F) (o : ops S F), exact_field o ->
  forall n m (s : S), (4 <= n)%N -> rect n n m ->
  (exists x, inverse c d o n m s = (Ok (Some x), s) /\ is_inverse n m x) \/ inverse c d o n m s = (Ok None, s).
Proof.
move=> S F c d o HF [|[|[|[|n]]]] // m s _ Rm. have [[x|] [-> H]] := inverse_big c d HF s Rm; [left|by right].
by exists x; case: H.
Qed.
Print Assumptions C48_inverse_big_sound.
Theorem C48_singular_is_none :
  forall (S : Type) (F : fieldType) (c : cfg) (d : ety S F) (o : ops S F), exact_field o ->
  forall n m (s : S), (4 <= n)%N -> rect n n m -> \det (mx_of n m) = 0 -> inverse c d o n m s = (Ok None, s).
Proof.
move=> S F c d o HF [|[|[|[|n]]]] // m s _ Rm H0. have [[x|] [-> H]] := inverse_big c d HF s Rm; last by [].
case: H => _ /(_ n.+4 (leqnn _)). by rewrite H0 eqxx.
Qed.
Print Assumptions C48_singular_is_none.

(** ** C50 *)
(** [mx_of k m] is the leading [k] x [k] block of [m]. *)
Theorem C50_some_iff_leading_minors :
  forall (S : Type) (F : fieldType) (c : cfg) (d : ety S F) (o : ops S F), exact_field o ->
  forall n m (s : S), (4 <= n)%N -> rect n n m ->
  ((exists x, inverse c d o n m s = (Ok (Some x), s)) <-> (forall k, (1 <= k <= n)%N -> \det (mx_of k m) != 0)).
Proof.
move=> S F c d o HF [|[|[|[|n]]]] // m s _ Rm. have [[x|] [-> H]] := inverse_big c d HF s Rm; split.
- move=> _ k /andP[_ Hk]. by case: H => _; apply.
- by move=> _; exists x.
- by case.
- move=> Hk. case: H => k [Hkn E]. by move: (Hk k Hkn); rewrite E eqxx.
Qed.
Print Assumptions C50_some_iff_leading_minors.
Definition m50 : list (list rat) :=
  [:: [:: 2%:R; 1; 0; 0]; [:: 1; 1; 0; 0]; [:: 0; 0; 1; 1]; [:: 0; 0; 0; 1]].
Example C50_ex : rect 4 4 m50 /\ (forall k, (1 <= k <= 4)%N -> \det (mx_of k m50) != 0).
Proof.
split; first by split=> //; do !constructor.
by move=> [|[|[|[|[|k]]]]] // _; rewrite -m_det_mx; vm_compute.
Qed.
(** ... so [inverse()] succeeds on it and returns the inverse. *)
Example C48_ex (S : Type) (c : cfg) (d : ety S rat) (s : S) :
  exists x, inverse c d (field_ops rat_fieldType) 4 m50 s = (Ok (Some x), s) /\ is_inverse 4 m50 x.
Proof.
have [R H] := C50_ex.
have [x E] := (C50_some_iff_leading_minors c d (field_ops_exact S rat_fieldType) s (leqnn 4) R).2 H.
case: (C48_inverse_big_sound c d (field_ops_exact S rat_fieldType) s (leqnn 4) R) => [//|E'].
by rewrite E' in E.
Qed.

(** ** C49 *)
(** Every invertible matrix of size up to 3 is inverted, and every matrix above with
    non-zero leading principal minors ... *)
Theorem C49_inverse_complete_partial :
  forall (S : Type) (F : fieldType) (c : cfg) (d : ety S F) (o : ops S F), exact_field o ->
  forall n m (s : S), (1 <= n)%N -> rect n n m -> (exists x, is_inverse n m x) ->
  ((n <= 3)%N \/ (forall k, (1 <= k < n)%N -> \det (mx_of k m) != 0)) ->
  exists x, inverse c d o n m s = (Ok (Some x), s) /\ is_inverse n m x.
Proof.
move=> S F c d o HF n m s Hn Rm [y [Ry [E _]]] H.
have Hd : \det (mx_of n m) != 0.
  move/(congr1 (mx_of n)): E. rewrite mx_mul mx_id => /(congr1 determinant). rewrite det_mulmx det1.
  case: eqP => // ->. rewrite mul0r => /esym/eqP. by rewrite oner_eq0.
case: (leqP n 3) => Hn3; first by apply: (C47_inverse_small c d HF s _ Rm).1 => //; rewrite Hn.
case: H => [H|H]; first by move: Hn3; rewrite ltnNge H.
have [x Ex] : exists x, inverse c d o n m s = (Ok (Some x), s).
  apply/(C50_some_iff_leading_minors c d HF s Hn3 Rm) => k /andP[Hk]. rewrite leq_eqVlt => /orP[/eqP->//|Hkn].
  by apply: H; rewrite Hk.
case: (C48_inverse_big_sound c d HF s Hn3 Rm) => [//|E']. by rewrite E' in Ex.
Qed.
Print Assumptions C49_inverse_complete_partial.
(** ... but for every size above 3 and every field there is an invertible matrix that
    [inverse()] gives up on: the exchange of the first two coordinates. *)
Definition swap01 (F : fieldType) (n : nat) : list (list F) :=
  mat n n (fun i j => if j == (match i with 0 => 1 | 1 => 0 | _ => i end)%N then 1 else 0).
Theorem C49_refuted :
  forall (S : Type) (F : fieldType) (c : cfg) (d : ety S F) (o : ops S F), exact_field o ->
  forall n (s : S), (4 <= n)%N ->
  exists m, rect n n m /\ is_inverse n m m /\ inverse c d o n m s = (Ok None, s).
Proof.
move=> S F c d o HF n s Hn. exists (swap01 F n).
have R : rect n n (swap01 F n) by exact: mat_rect.
have I : is_inverse n (swap01 F n) (swap01 F n).
  split=> //. suff E : m_mul (ring_arith F) n n n (swap01 F n) (swap01 F n) = m_id (ring_arith F) n by [].
  apply: (@mx_of_inj _ n); try exact: mat_rect. rewrite mx_mul mx_id /swap01 mx_of_mat //.
  apply/matrixP=> i j. rewrite !mxE.
  set p := fun i : nat => (match i with 0 => 1 | 1 => 0 | _ => i end)%N.
  have Hp (k : 'I_n) : (p k < n)%N.
    by case: k => [[|[|k]]] //= _; apply: leq_trans Hn.
  rewrite (bigD1 (Ordinal (Hp i))) //= big1 ?addr0; last first.
    move=> k Hk. rewrite !mxE. have -> : (nat_of_ord k == p i) = false; last by rewrite mul0r.
    apply/negbTE. by move: Hk; rewrite -val_eqE.
  rewrite !mxE /= eqxx mul1r -/(p _) -/(p _). have -> : p (p i) = i by case: (nat_of_ord i) => [|[|]].
  by rewrite -val_eqE /= eq_sym; case: (_ == _).
split=> //. split=> //.
case: (C48_inverse_big_sound c d HF s Hn R) => [[x [Ex _]]|//].
have /(C50_some_iff_leading_minors c d HF s Hn R) H : exists x, inverse c d o n (swap01 F n) s = (Ok (Some x), s) by exists x.
have H1 : (1 <= 1 <= n)%N by rewrite /=; apply: leq_trans Hn.
move: (H 1%N H1). rewrite det_mx11 mxE /swap01 at2_matf //=; try by apply: leq_trans Hn. by rewrite eqxx.
Qed.
Print Assumptions C49_refuted.
Example C49_ex (S : Type) (c : cfg) (d : ety S rat) (s : S) :
  is_inverse 4 (swap01 rat_fieldType 4) (swap01 rat_fieldType 4) /\ \det (mx_of 4 (swap01 rat_fieldType 4)) = -1.
Proof. split; last by rewrite -m_det_mx. by split; first exact: mat_rect. Qed.
