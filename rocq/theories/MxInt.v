(** * MxInt.v - determinant and inverse above size 3 over the integers (division truncates). *)
From Coq Require Import List Arith Bool Lia ZArith.
From Verif Require Import Rust Iter Elem VectorM MatIterM MatrixM ArithM OpsM SpecCommon SpecAlg.
From Verif Require Import IterProofs OwnProofs ChunkProofs VecProofs MatProofs AccProofs Sim DetLoop OpsPure Algebra PropsAlg.
Set Warnings "-notation-overridden,-ambiguous-paths".
From mathcomp Require Import all_ssreflect all_algebra.
From Verif Require Import SpecMx MxLink MxDet MxSpec PropsIntDiv.
Set Implicit Arguments.
Unset Strict Implicit.
Unset Printing Implicit Defensive.
Import GRing.Theory.
Local Open Scope ring_scope.

Section ComRing.
Variables (S : Type) (R : comRingType) (c : cfg) (d : ety S R) (o : ops S R) (dv : R -> R -> R).
Let A := ring_arith R.
Hypothesis HE : exact o A.
Hypothesis HD : forall x y s, y != 0 -> o_div o x y s = (Ok (dv x y), s).
Hypothesis HZ : forall x, o_is_zero o x = (x == 0).
Hypothesis HU : forall x y, y * y = 1 -> dv x y = x * y.
Implicit Types (m : list (list R)) (s : S).

Definition dlt (a b : nat) : R := if a == b then 1 else 0.
Definition gi n m i (f g : nat -> nat -> R) : Prop :=
  mxf n g *m mx_of n m = mxf n f /\
  (forall a b, (a < n)%N -> (b < i)%N -> f a b = dlt a b) /\
  (forall a b, (a < n)%N -> (b < n)%N -> (i <= b)%N -> g a b = dlt a b).
Definition mu m k := \det (mx_of k m).

Lemma gi_block n m i f g k : (i <= k)%N -> (k <= n)%N -> gi n m i f g -> mxf k g *m mx_of k m = mxf k f.
Proof.
move=> Hik Hkn [E [_ Hg]]. apply/matrixP=> a b. rewrite !mxE.
have Ha : (a < n)%N by apply: leq_trans Hkn. have Hb : (b < n)%N by apply: leq_trans Hkn.
move/matrixP: E => /(_ (Ordinal Ha) (Ordinal Hb)). rewrite !mxE /= => <-.
rewrite (eq_bigr (fun l : 'I_k => g a l * at2 A m l b)); last by move=> l _; rewrite !mxE.
rewrite [RHS](eq_bigr (fun l : 'I_n => g a l * at2 A m l b)); last by move=> l _; rewrite !mxE.
rewrite (big_ord_widen n (fun l => g a l * at2 A m l b) Hkn) big_mkcond. apply: eq_bigr => l _.
case: ltnP => // Hkl. rewrite Hg //; last exact: leq_trans Hkl. 
rewrite /dlt. case: eqP => [Ea|_]; last by rewrite mul0r. by move: (ltn_ord a); rewrite Ea ltnNge Hkl.
Qed.
Lemma dlt_last i g : (forall a, (a < i.+1)%N -> g a i = dlt a i) -> \det (mxf i.+1 g) = \det (mxf i g).
Proof.
move=> H. rewrite (expand_det_col _ ord_max) (bigD1 ord_max) //= big1 ?addr0; last first.
  move=> a Ha. rewrite mxE H // /dlt. have -> : (nat_of_ord a == i) = false; last by rewrite mul0r.
  apply/negbTE. by move: Ha; rewrite -val_eqE.
rewrite mxE H // /dlt eqxx mul1r /cofactor -signr_odd /= addnn odd_double expr0 mul1r.
congr (\det _). apply/matrixP=> a b. rewrite !mxE !lift_max. by [].
Qed.
(** The pivots are quotients of leading principal minors. *)
Lemma gi_pivot n m i f g : (i < n)%N -> gi n m i f g -> mu m i.+1 = mu m i * f i i.
Proof.
move=> Hi G. have [E [Hf Hg]] := G.
have Hb := gi_block (leqnSn i) Hi G. have Hb0 := gi_block (leqnn i) (ltnW Hi) G.
have Hm : mxf i f = 1%:M.
  apply/matrixP=> a b. rewrite !mxE Hf //; last by apply: ltn_trans Hi. rewrite /dlt -val_eqE /=. by case: (_ == _).
have Hu : \det (mxf i.+1 f) = f i i.
  rewrite det_upper ?big_ord_recr /=; last first.
    move=> a b Hba Ha. rewrite Hf; [|exact: leq_trans Hi|exact: leq_trans Hba _].
    rewrite /dlt. case: eqP => // Eab. by move: Hba; rewrite Eab ltnn.
  rewrite big1 ?mul1r // => a _. rewrite Hf //; last exact: ltn_trans Hi. by rewrite /dlt eqxx.
move: (congr1 determinant Hb) (congr1 determinant Hb0). rewrite !det_mulmx Hu Hm det1 dlt_last => [|a Ha]; last first.
  by rewrite Hg //; exact: leq_trans Hi.
rewrite -/(mu m i) -/(mu m i.+1) => H1 H2. by rewrite -H1 mulrA [mu m i * _]mulrC H2 mul1r.
Qed.
Lemma gi_final n m f g : gi n m n f g -> mxf n g *m mx_of n m = 1%:M.
Proof. move=> [E [Hf _]]. rewrite E. apply/matrixP=> a b. rewrite !mxE Hf // /dlt -val_eqE /=. by case: (_ == _). Qed.

Definition upto m k := forall j, (j <= k)%N -> mu m j * mu m j = 1.
(** The first leading principal minor that is not 1 or -1 is the one of order [k + 1]. *)
Definition stops m k := upto m k /\ mu m k.+1 * mu m k.+1 <> 1.
Lemma pivot_unit m i p : mu m i * mu m i = 1 -> mu m i.+1 = mu m i * p -> p * p = mu m i.+1 * mu m i.+1.
Proof. move=> H ->. by rewrite mulrACA H mul1r. Qed.
(** Row [k] of both matrices is zero. *)
Definition dead n k (f g : nat -> nat -> R) := forall b, (b < n)%N -> f k b = 0 /\ g k b = 0.

Hypothesis HN : forall y, y != 0 -> y * y <> 1 -> dv 1 y = 0.

Definition good n m i (st : list (list R) * list (list R)) : Prop :=
  exists f g, st = (mat n n f, mat n n g) /\
  ((gi n m i f g /\ upto m i) \/ (exists k, (k < i)%N /\ stops m k /\ mu m k.+1 <> 0 /\ dead n k f g)).

Lemma scale_gi n m i f g : (i < n)%N -> f i i * f i i = 1 -> gi n m i f g ->
  let f' := f_scale A i (f i i) f in let g' := f_scale A i (f i i) g in
  [/\ mxf n g' *m mx_of n m = mxf n f', f' i i = 1,
      (forall a b, (a < n)%N -> (b < i)%N -> f' a b = dlt a b) &
      (forall a b, (a < n)%N -> (b < n)%N -> (i < b)%N -> g' a b = dlt a b)].
Proof.
move=> Hi Hp [E [Hf Hg]] f' g'. split.
- exact: scale_lin.
- by rewrite /f' /f_scale eqbE eqxx.
- move=> a b Ha Hb. rewrite /f' /f_scale eqbE. case: eqP => [->|_]; last exact: Hf.
  rewrite Hf //. rewrite /dlt. case: eqP => [Eb|_]; last by rewrite /= mul0r. by move: Hb; rewrite Eb ltnn.
- move=> a b Ha Hb Hib. rewrite /g' /f_scale eqbE. case: eqP => [->|_]; last by apply: Hg => //; exact: ltnW.
  rewrite Hg //; last exact: ltnW. rewrite /dlt. case: eqP => [Eb|_]; last by rewrite /= mul0r. by move: Hib; rewrite Eb ltnn.
Qed.

(** The elimination sweep of step [i]. *)
Let sweep n i := (fun j mi => if Nat.eqb i j then ret mi else bind (ix o (fst mi) j i) (fun a => elim_rows o n i j a mi)).
Lemma sweep_dead n i k f g s : (i < n)%N -> (k < n)%N -> dead n k f g ->
  exists f' g', for_range 0 n (sweep n i) (mat n n f, mat n n g) s = (Ok (mat n n f', mat n n g'), s) /\ dead n k f' g'.
Proof.
move=> Hi Hk D. 
have [||r [Er [f' [g' [Hr H]]]]] := for_range_inv (sweep n i) (fun j r => exists f g, r = (mat n n f, mat n n g) /\ dead n k f g) s 0 n (mat n n f, mat n n g) (Nat.le_0_l n).
- by exists f, g.
- move=> j st [_ /ltP Hj] {f g D} [f [g [-> D]]]. rewrite /sweep eqbE. case: eqP => [Eij|/eqP Hij].
    eexists; split; first by []. by exists f, g.
  rewrite /bind [fst _]/= (ix_mat o A HE); [|by apply/ltP|by apply/ltP].
  rewrite (elim_rows_spec o A HE); [|by apply/ltP|by apply/ltP|by apply/eqP].
  eexists. split; first reflexivity. do 2 eexists. split; first by []. move=> b Hb. have [H1 H2] := D b Hb.
  rewrite /f_elim !eqbE. case: eqP => [Ekj|//]. rewrite H1 H2. have -> : f j i = 0 by rewrite -Ekj; apply: (D i Hi).1.
  by rewrite /= !mulr0 !subr0.
- rewrite Er Hr. by exists f', g'.
Qed.
Lemma sweep_gi n m i f1 g1 s : (i < n)%N ->
  mxf n g1 *m mx_of n m = mxf n f1 -> f1 i i = 1 ->
  (forall a b, (a < n)%N -> (b < i)%N -> f1 a b = dlt a b) ->
  (forall a b, (a < n)%N -> (b < n)%N -> (i < b)%N -> g1 a b = dlt a b) ->
  exists f' g', for_range 0 n (sweep n i) (mat n n f1, mat n n g1) s = (Ok (mat n n f', mat n n g'), s) /\ gi n m i.+1 f' g'.
Proof.
move=> Hi E1 Hpiv Hf1 Hg1.
pose J j (r : list (list R) * list (list R)) := exists f g, r = (mat n n f, mat n n g) /\ mxf n g *m mx_of n m = mxf n f /\ 
   (forall b, f i b = f1 i b) /\ (forall b, g i b = g1 i b) /\
   (forall a b, (a < n)%N -> (b < i)%N -> f a b = dlt a b) /\
   (forall a b, (a < n)%N -> (b < n)%N -> (i < b)%N -> g a b = dlt a b) /\
   (forall a, (a < n)%N -> (a < j)%N -> f a i = dlt a i).
have [|| r [Er [f [g [Hr [E [_ [_ [Hf [Hg Hc]]]]]]]]]] := for_range_inv (sweep n i) J s 0 n (mat n n f1, mat n n g1) (Nat.le_0_l n).
- exists f1, g1. by do !split.
- move=> j st1 [_ /ltP Hj] [f [g [-> [E [Hfi [Hgi [Hf [Hg Hc]]]]]]]]. rewrite /sweep eqbE. case: eqP => [Eij|/eqP Hij].
    exists (mat n n f, mat n n g). split=> //. exists f, g. do !split=> //.
    move=> a Ha Haj. case: (a =P i) => [->|Hne]; first by rewrite Hfi Hpiv /dlt eqxx.
    apply: Hc => //. nlia.
  rewrite /bind [fst _]/= (ix_mat o A HE); [|by apply/ltP|by apply/ltP].
  rewrite (elim_rows_spec o A HE); [|by apply/ltP|by apply/ltP|by apply/eqP].
  eexists. split; first reflexivity.
  exists (f_elim A i j (f j i) f), (f_elim A i j (f j i) g). split=> //. split; first exact: elim_lin.
  split; first by move=> b; rewrite /f_elim eqbE (negbTE Hij) Hfi.
  split; first by move=> b; rewrite /f_elim eqbE (negbTE Hij) Hgi.
  split.
    move=> a b Ha Hb. rewrite /f_elim eqbE. case: eqP => [->|_]; last exact: Hf.
    rewrite (Hf j b) // (Hf i b) // /= /dlt. have -> : (i == b) = false by apply/eqP=> Eb; move: Hb; rewrite Eb ltnn.
    by rewrite mul0r subr0.
  split.
    move=> a b Ha Hb Hib. rewrite /f_elim eqbE. case: eqP => [->|_]; last exact: Hg.
    rewrite (Hg j b) // (Hg i b) // /= /dlt. have -> : (i == b) = false by apply/eqP=> Eb; move: Hib; rewrite Eb ltnn.
    by rewrite mul0r subr0.
  move=> a Ha Haj. rewrite /f_elim eqbE. case: eqP => [->|Hne].
    by rewrite Hfi Hpiv /= mul1r subrr /dlt eq_sym (negbTE Hij).
  apply: Hc => //. nlia.
rewrite Er Hr. exists f, g. split=> //. split=> //. split.
  move=> a b Ha Hb. case: (b =P i) => [->|Hne]; first exact: Hc. apply: Hf => //. nlia.
move=> a b Ha Hb Hib. apply: Hg => //.
Qed.

Lemma inv_big_int n m s : rect n n m -> exists r, inv_big c d o n m s = (Ok r, s) /\
  match r with
  | Some x => (exists g, x = mat n n g /\ mxf n g *m mx_of n m = 1%:M /\ upto m n) \/
              (exists g k, x = mat n n g /\ (k < n)%N /\ stops m k /\ mu m k.+1 <> 0 /\ forall b, (b < n)%N -> g k b = 0)
  | None => exists k, (k < n)%N /\ stops m k
  end.
Proof.
move=> Rm. rewrite /inv_big /bind (mclone_id c d) //; last exact: (ex_clone _ _ (ex_semi _ _ HE)).
have -> : midentity c d o n s = (Ok (m_id A n), s).
  exact: (sim_eqm _ _ (sim_midentity false eq c d o A (exact_sim_semi _ _ (ex_semi _ _ HE)) n) s).
match goal with |- context [for_range_ret _ _ ?b _ _] => set body := b end.
have [r [Er Hr]] : exists r, for_range_ret 0 n body (m, m_id A n) s = (Ok r, s) /\
    match r with inl st => good n m n st | inr _ => exists k, (k < n)%N /\ stops m k end.
  apply: (for_range_ret_inv _ (good n m)); first by nlia.
    exists (at2 A m), (at2 A (m_id A n)). rewrite -!mat_of //; last exact: mat_rect. split=> //. left. split; last first.
      by case=> // _; rewrite /mu det_mx00 mulr1.
    split; first by rewrite -[mxf n (at2 A (m_id A n))]/(mx_of n (m_id A n)) mx_id mul1mx.
    split=> // a b Ha Hb _. by rewrite at2_matf // eqbE.
  move=> i st [_ /ltP Hi] [f [g [-> G]]]. rewrite /body [fst _]/= (ix_mat o A HE); [|by apply/ltP|by apply/ltP].
  rewrite HZ. case: eqP => [H0|/eqP Hp].
    exists (inr tt). split=> //. case: G => [[G Hu]|[k [Hk [Hs _]]]]; last by exists k; split=> //; exact: ltn_trans Hi.
    exists i. split=> //. split=> //. rewrite (gi_pivot Hi G) H0 mulr0 mulr0 => /eqP. by rewrite eq_sym oner_eq0.
  rewrite (ex_one _ _ (ex_semi _ _ HE)) HD // (scale_rows_spec o A HE); last by apply/ltP.
  rewrite -/(sweep n i).
  case: G => [[G Hu]|[k [Hk [Hs [Hz D]]]]].
    have Epi := gi_pivot Hi G. have Epp := pivot_unit (Hu i (leqnn i)) Epi.
    case: (mu m i.+1 * mu m i.+1 =P 1) => [H1|H1].
      rewrite HU ?mul1r; last by rewrite Epp.
      have Hpp : f i i * f i i = 1 by rewrite Epp.
      have [E1 Hpiv Hf1 Hg1] := scale_gi Hi Hpp G.
      have [f' [g' [-> G']]] := sweep_gi s Hi E1 Hpiv Hf1 Hg1.
      eexists; split; first reflexivity. exists f', g'. split=> //. left. rewrite Nat.add_1_r. split=> // j.
      rewrite leq_eqVlt => /orP [/eqP -> //|]. exact: Hu.
    rewrite HN //; last by rewrite Epp.
    have D : dead n i (f_scale A i 0 f) (f_scale A i 0 g).
      by move=> b Hb; rewrite /f_scale !eqbE eqxx /= !mulr0.
    have [f' [g' [-> D']]] := sweep_dead s Hi Hi D.
    eexists; split; first reflexivity. exists f', g'. split=> //. right. exists i. rewrite Nat.add_1_r. do !split=> //.
    rewrite Epi => H0. move: Hp => /eqP; case. move/(congr1 (fun x => mu m i * x)): H0. by rewrite mulrA (Hu i) // mul1r mulr0.
  have Hkn : (k < n)%N by exact: ltn_trans Hi.
  have D1 : dead n k (f_scale A i (dv 1 (f i i)) f) (f_scale A i (dv 1 (f i i)) g).
    move=> b Hb. rewrite /f_scale !eqbE. have -> : (k == i) = false by apply/eqP=> Ek; move: Hk; rewrite Ek ltnn. exact: D.
  have [f' [g' [-> D']]] := sweep_dead s Hi Hkn D1.
  eexists; split; first reflexivity. exists f', g'. split=> //. right. exists k. rewrite Nat.add_1_r. split; first exact: ltnW. split=> //.
rewrite Er. case: r Er Hr => [st|[]] Er Hr; last by eexists; split; [reflexivity|].
case: Hr => [f [g [-> [[G Hu]|[k [Hk [Hs [Hz D]]]]]]]]; eexists; split; first reflexivity; try reflexivity.
- left. exists g. split=> //. split=> //. exact: gi_final G.
- right. exists g, k. split=> //. split=> //. split=> //. split=> // b Hb. exact: (D b Hb).2.
Qed.

(** ** Determinant *)
Definition tri0 (n i : nat) (f : nat -> nat -> R) : Prop :=
  forall a b, (b < i)%N -> (b < a)%N -> (a < n)%N -> f a b = 0.
(** Before step [i]: the leading principal minors are those of [m]. *)
Definition di n m i (f : nat -> nat -> R) : Prop := (forall k, (k <= n)%N -> \det (mxf k f) = mu m k) /\ tri0 n i f.
Lemma tri_block n i f : tri0 n i f -> forall k, (k <= i.+1)%N -> (k <= n)%N -> \det (mxf k f) = \prod_(a < k) f a a.
Proof.
move=> H k Hk Hkn. apply: det_upper => a b Hba Ha. apply: H => //; last exact: leq_trans Hkn.
apply: leq_trans Hba _. rewrite -ltnS. exact: leq_trans Hk.
Qed.
Lemma di_pivot n m i f : (i < n)%N -> di n m i f -> mu m i.+1 = mu m i * f i i.
Proof.
move=> Hi [H1 H2]. rewrite -!H1 //; last exact: ltnW.
rewrite (tri_block H2) // (tri_block H2) //; last exact: ltnW. by rewrite big_ord_recr.
Qed.
Lemma det_big_int n m cof s : rect n n m -> (forall k, (k < n)%N -> mu m k * mu m k = 1) ->
  det_big c d o n m cof s = (Ok (mu m n), s).
Proof.
move=> Rm Hu. rewrite /det_big /bind (mclone_id c d) //; last exact: (ex_clone _ _ (ex_semi _ _ HE)).
match goal with |- context [for_range_ret _ _ ?b _ _] => set body := b end.
have [|| r [Er Hr]] := for_range_ret_inv body (fun i st => exists f, st = mat n n f /\ di n m i f) (fun v => False) s 0 n m (Nat.le_0_l n).
- exists (at2 A m). split; first exact: mat_of. split; last by []. by [].
- move=> i st [_ /ltP Hi] [f [Est D]]. rewrite /body.
  match goal with |- context [for_range_ret _ _ ?b _ _] => set ibody := b end.
  have [r [Er Hr]] : exists r, for_range_ret (i + 1) n ibody st s = (Ok r, s) /\
      match r with inl st' => exists f, st' = mat n n f /\ di n m i f /\ (forall a, (i < a)%N -> (a < n)%N -> (a < n)%N -> f a i = 0) | inr v => False end.
    apply: (for_range_ret_inv _ (fun j st' => exists f, st' = mat n n f /\ di n m i f /\ (forall a, (i < a)%N -> (a < j)%N -> (a < n)%N -> f a i = 0)) (fun v => False)); first by nlia.
      exists f. split=> //. split=> // a Ha Hb. nlia.
    move=> j st' [Hij Hj] [f' [-> [D' Hc']]]. rewrite /ibody /bind.
    have Hi' : (i < n)%coq_nat by apply/ltP.
    rewrite (mindex_in _ i i (f' i i)); last exact: entry_mat.
    have Epi := di_pivot Hi D'.
    (* the pivot: a unit if it is not the last *)
    have Hi1 : (i.+1 < n)%N by nlia.
    have Epp : f' i i * f' i i = 1 by rewrite (pivot_unit (Hu i Hi) Epi) Hu.
    rewrite HZ. case: eqP => [H0|/eqP Hp]; first by move: Epp => /eqP; rewrite H0 mulr0 eq_sym oner_eq0.
    rewrite !(ix_mat o A HE) // HD // (elim_row_spec o A HE) //; last by nlia.
    rewrite HU //. eexists. split; first reflexivity.
    exists (f_elim A i j (f' j i * f' i i) f'). split=> //. have [D1 D2] := D'. split; first split.
    + move=> k Hk. rewrite -D1 //. case: (leqP k j) => Hkj.
        congr (\det _). apply/matrixP=> a b. rewrite !mxE /f_elim eqbE. case: eqP => [Ea|//]. by move: (ltn_ord a); rewrite Ea ltnNge Hkj.
      apply: det_elim => //; [nlia|apply/eqP; nlia].
    + move=> a b Hb Hab Ha. rewrite /f_elim eqbE. case: eqP => [->|_]; last exact: D2.
      rewrite (D2 j b) //; [|by nlia|by nlia]. rewrite (D2 i b) //=; by rewrite mul0r subr0.
    + move=> a Ha Haj HaN. rewrite /f_elim eqbE. case: eqP => [->|Hne]; last by apply: Hc' => //; nlia.
      by rewrite /= mulrCA Epp mulr1 subrr.
  rewrite -/(ibody) Er. exists r. split=> //. case: r Er Hr => // st' _ [f' [Est' [[D1 D2] Hc']]].
  exists f'. split=> //. split=> // a b Hb Hab Ha. 
  case: (leqP i b) => Hib; last exact: D2.
  have -> : b = i by nlia. apply: Hc' => //; nlia.
rewrite Er. case: r Er Hr => [st|v] _ => [[f [Est [D1 D2]]]|] //.
rewrite Est (fold_range _ (fun i => f i i) _ (fun x y => x * y)); last first.
- move=> i s0 Hi. exact: (ix_mat o A HE).
- exact: (ex_mul _ _ (ex_semi _ _ HE)).
by rewrite (ex_one _ _ (ex_semi _ _ HE)) prod_big -D1 // (tri_block D2).
Qed.

(** ** Elimination in which every division is exact *)
Hypothesis HX : forall x y, y != 0 -> dv (x * y) y = x.
Section LU.
Variables (n : nat) (L U : nat -> nat -> R).
Hypothesis HL : forall a k, (a < k)%N -> (k < n)%N -> L a k = 0.
Hypothesis HL1 : forall a, (a < n)%N -> L a a = 1.
Hypothesis HUp : forall k b, (b < k)%N -> (k < n)%N -> U k b = 0.
Hypothesis HUd : forall k, (k.+1 < n)%N -> U k k != 0.
Definition lu_at (i a b : nat) : R := \sum_(k < n | (i <= k)%N || (k == a :> nat)) L a k * U k b.
Lemma lu_single i a b : (a <= i)%N -> (a < n)%N -> lu_at i a b = U a b.
Proof.
move=> Ha Han. rewrite /lu_at (bigD1 (Ordinal Han)) /=; last by rewrite eqxx orbT.
rewrite HL1 // mul1r big1 ?addr0 // => k /andP [/orP [Hk|/eqP Ek] Hne].
- rewrite HL ?mul0r //. rewrite ltn_neqAle (leq_trans Ha Hk) andbT. apply/eqP=> E. move: Hne. by rewrite -val_eqE /= E eqxx.
- by move: Hne; rewrite -val_eqE /= Ek eqxx.
Qed.
Lemma lu_col i j : (i < j)%N -> (j < n)%N -> lu_at i j i = L j i * U i i.
Proof.
move=> Hij Hj. have Hi : (i < n)%N by exact: ltn_trans Hj.
rewrite /lu_at (bigD1 (Ordinal Hi)) /=; last by rewrite leqnn.
rewrite big1 ?addr0 // => k /andP [H Hne]. rewrite HUp ?mulr0 //.
case/orP: H => [Hk|/eqP -> //]. rewrite ltn_neqAle Hk andbT. apply/eqP=> E. move: Hne. by rewrite -val_eqE /= -E eqxx.
Qed.
Lemma lu_next i j b : (i < j)%N -> (j < n)%N -> lu_at i j b - U i b * L j i = lu_at i.+1 j b.
Proof.
move=> Hij Hj. have Hi : (i < n)%N by exact: ltn_trans Hj.
rewrite /lu_at (bigD1 (Ordinal Hi)) /=; last by rewrite leqnn.
rewrite [U i b * _]mulrC addrC addrA addNr add0r. apply: eq_bigl => k. rewrite -val_eqE /=.
have -> : (k != i :> nat) = (k < i)%N || (i < k)%N by rewrite neq_ltn.
case: (ltngtP i k) => H /=; rewrite ?andbT ?andbF //.
by rewrite -H; apply/esym/negbTE; rewrite neq_ltn Hij.
Qed.
Lemma det_big_lu cof s : det_big c d o n (mat n n (lu_at 0)) cof s = (Ok (\prod_(k < n) U k k), s).
Proof.
rewrite /det_big /bind (mclone_id c d) //; [|exact: mat_rect|exact: (ex_clone _ _ (ex_semi _ _ HE))].
match goal with |- context [for_range_ret _ _ ?b _ _] => set body := b end.
have [|| r [Er Hr]] := for_range_ret_inv body (fun i st => st = mat n n (lu_at i)) (fun v => False) s 0 n (mat n n (lu_at 0)) (Nat.le_0_l n).
- by [].
- move=> i st [_ /ltP Hi] ->. rewrite /body.
  match goal with |- context [for_range_ret _ _ ?b _ _] => set ibody := b end.
  have [r [Er Hr]] : exists r, for_range_ret (i + 1) n ibody (mat n n (lu_at i)) s = (Ok r, s) /\
      match r with inl st' => st' = mat n n (fun a b => if (i < a)%N && (a < n)%N then lu_at i.+1 a b else lu_at i a b) | inr v => False end.
    apply: (for_range_ret_inv _ (fun j st' => st' = mat n n (fun a b => if (i < a)%N && (a < j)%N then lu_at i.+1 a b else lu_at i a b)) (fun v => False)); first by nlia.
      apply: mat_ext' => a b _ _. rewrite addn1 ltnS. by case: (ltnP i a).
    move=> j st' [Hij Hj] ->. rewrite /ibody /bind.
    have Hi' : (i < n)%coq_nat by apply/ltP. have Hlt : (i < j)%N by nlia. have Hjn : (j < n)%N by nlia.
    set F := fun a b : nat => if (i < a)%N && (a < j)%N then lu_at i.+1 a b else lu_at i a b.
    have Fi b : F i b = U i b by rewrite /F ltnn /= lu_single.
    have Fj b : F j b = lu_at i j b by rewrite /F ltnn andbF.
    rewrite (mindex_in _ i i (F i i)); last exact: entry_mat.
    have Hp : U i i != 0 by apply: HUd; exact: leq_ltn_trans Hjn.
    rewrite HZ Fi (negbTE Hp) !(ix_mat o A HE) // Fi Fj lu_col // HD // HX //.
    rewrite (elim_row_spec o A HE) //; last by nlia.
    eexists. split; first reflexivity. apply: mat_ext' => a b /ltP Ha /ltP Hb. rewrite /f_elim eqbE plusE addn1 ltnS.
    case: eqP => [->|Hne]; first by rewrite Fi Fj leqnn Hlt /= lu_next.
    rewrite /F [(a <= j)%N]leq_eqVlt. have -> : (a == j) = false by apply/eqP. by [].
  rewrite -/(ibody) Er. exists r. split=> //. case: r Er Hr => // st' _ ->.
  apply: mat_ext' => a b /ltP Ha _. rewrite Ha andbT plusE addn1. case: (ltnP i a) => // Hai.
  by rewrite !lu_single // ltnW.
rewrite Er. case: r Er Hr => [st|v] _ => [Est|] //.
rewrite Est (fold_range _ (fun i => U i i) _ (fun x y => x * y)); last first.
- move=> i s0 Hi. rewrite (ix_mat o A HE) // lu_single //; [|by apply/ltP]. by apply: ltnW; apply/ltP.
- exact: (ex_mul _ _ (ex_semi _ _ HE)).
by rewrite (ex_one _ _ (ex_semi _ _ HE)) prod_big.
Qed.
Lemma det_lu : \det (mxf n (lu_at 0)) = \prod_(k < n) U k k.
Proof.
have -> : mxf n (lu_at 0) = mxf n L *m mxf n U.
  apply/matrixP=> a b. rewrite !mxE /lu_at. rewrite (eq_bigl xpredT) //. apply: eq_bigr => k _. by rewrite !mxE.
rewrite det_mulmx -[\det (mxf n L)]det_tr.
have -> : (mxf n L)^T = mxf n (fun a b => L b a) by apply/matrixP=> a b; rewrite !mxE.
rewrite !det_upper; last by move=> a b Hba Ha; exact: HL.
  by rewrite big1 ?mul1r // => a _; rewrite HL1.
by move=> a b Hba Ha; exact: HUp.
Qed.
End LU.
End ComRing.

(** ** The integers as a ring of the library *)
Definition z_pair (z : Z) : nat * nat := (Z.to_nat z, Z.to_nat (Z.opp z)).
Definition pair_z (x : nat * nat) : Z := Z.sub (Z.of_nat x.1) (Z.of_nat x.2).
Lemma z_pairK : cancel z_pair pair_z. Proof. move=> z. rewrite /pair_z /z_pair /=. lia. Qed.
Definition z_eqMixin := CanEqMixin z_pairK.
Canonical z_eqType := EqType Z z_eqMixin.
Definition z_choiceMixin := CanChoiceMixin z_pairK.
Canonical z_choiceType := ChoiceType Z z_choiceMixin.
Lemma z_addA : associative Z.add. Proof. move=> x y z. lia. Qed.
Lemma z_addC : commutative Z.add. Proof. move=> x y. lia. Qed.
Lemma z_add0 : ssrfun.left_id Z0 Z.add. Proof. by []. Qed.
Lemma z_addN : ssrfun.left_inverse Z0 Z.opp Z.add. Proof. move=> x. lia. Qed.
Definition z_zmodMixin := ZmodMixin z_addA z_addC z_add0 z_addN.
Canonical z_zmodType := ZmodType Z z_zmodMixin.
Lemma z_mulA : associative Z.mul. Proof. move=> x y z. exact: Z.mul_assoc. Qed.
Lemma z_mulC : commutative Z.mul. Proof. move=> x y. exact: Z.mul_comm. Qed.
Lemma z_mul1 : ssrfun.left_id (Zpos xH) Z.mul. Proof. move=> x. exact: Z.mul_1_l. Qed.
Lemma z_mulDl : ssrfun.left_distributive Z.mul Z.add. Proof. move=> x y z. exact: Z.mul_add_distr_r. Qed.
Lemma z_one0 : (Zpos xH) != Z0. Proof. by []. Qed.
Definition z_ringMixin := ComRingMixin z_mulA z_mulC z_mul1 z_mulDl z_one0.
Canonical z_ringType := RingType Z z_ringMixin.
Canonical z_comRingType := ComRingType Z z_mulC.
Lemma z_arithE : ring_arith z_ringType = z_arith. Proof. by []. Qed.

(** ** Over the integers, in terms of lists *)
(** The leading principal minor of order [k]. *)
Definition z_minor (k : nat) (m : list (list Z)) : Z := m_det z_arith k (List.map (firstn k) (firstn k m)).
Definition z_unit (x : Z) : Prop := x = Zpos xH \/ x = Zneg xH.
Lemma z_unitP x : z_unit x <-> Z.mul x x = Zpos xH.
Proof. rewrite /z_unit. split; [by case=> ->|]. nia. Qed.
Lemma at2_block k (m : list (list Z)) i j : (i < k)%coq_nat -> (j < k)%coq_nat ->
  at2 z_arith (List.map (firstn k) (firstn k m)) i j = at2 z_arith m i j.
Proof.
move=> Hi Hj. rewrite /at2.
have N : forall X k (l : list X) i x, (i < k)%coq_nat -> List.nth i (firstn k l) x = List.nth i l x.
  move=> X. elim=> [|k' IH] [|y l] [|i'] x Hi' //; try nlia. rewrite /=. apply: IH. nlia.
have -> : List.nth i (List.map (firstn k) (firstn k m)) nil = firstn k (List.nth i (firstn k m) nil).
  have := List.map_nth (firstn k) (firstn k m) nil i. by rewrite firstn_nil.
by rewrite N // N.
Qed.
Lemma mu_z (m : list (list Z)) k : mu (R := z_comRingType) m k = z_minor k m.
Proof.
rewrite /z_minor -z_arithE m_det_mx /mu. congr (\det _). apply/matrixP=> i j. rewrite !mxE.
apply: (esym (at2_block m _ _)); by apply/ltP.
Qed.
Lemma z_minor_full n (m : list (list Z)) : rect n n m -> z_minor n m = m_det z_arith n m.
Proof. move=> _. by rewrite -mu_z -z_arithE m_det_mx. Qed.
Lemma z_minor0 m : z_minor 0 m = Zpos xH. Proof. by []. Qed.

Section ZOps.
Variables (S : Type) (c : cfg) (d : ety S Z).
Lemma z_HZ x : o_is_zero (z_ops (S := S)) x = (x == Z0 :> z_comRingType).
Proof. rewrite /=. by case: Z.eqb_spec => [->|H]; [rewrite eqxx|apply/esym/eqP]. Qed.
Lemma z_HD (x y : z_comRingType) (s : S) : y != 0 -> o_div z_ops x y s = (Ok (Z.quot x y), s).
Proof. move=> Hy. rewrite /=. case: Z.eqb_spec => // E. by move: Hy; rewrite E eqxx. Qed.
Lemma z_HU (x y : z_comRingType) : y * y = 1 -> Z.quot x y = x * y.
Proof. move=> /z_unitP [->|->]; first by rewrite Z.quot_1_r mulr1. change (Z.quot x (Z.opp (Zpos xH)) = Z.mul x (Zneg xH)). rewrite Z.quot_opp_r // Z.quot_1_r. nia. Qed.
Lemma z_HN (y : z_comRingType) : y != 0 -> y * y <> 1 -> Z.quot 1 y = 0.
Proof.
move=> Hy Hu. have H0 : y <> Z0 by move=> E; move: Hy; rewrite E eqxx.
have H1 : ~ z_unit y by move=> H; apply: Hu; apply/z_unitP. rewrite /z_unit in H1.
apply: (proj2 (Z.quot_small_iff (Zpos xH) y H0)). change (GRing.one z_comRingType) with (Zpos xH). lia.
Qed.
Lemma z_HX (x y : z_comRingType) : y != 0 -> Z.quot (x * y) y = x.
Proof. move=> Hy. apply: Z.quot_mul => E. by move: Hy; rewrite E eqxx. Qed.

Lemma det_ge4 (T : Type) (d' : ety S T) (o : ops S T) n m s : (4 <= n)%coq_nat ->
  exists cof, det c d' o n m s = det_big c d' o n m cof s.
Proof. move=> Hn. case: n Hn => [|[|[|[|k]]]] Hn; try nlia. by eexists; reflexivity. Qed.
Lemma inverse_ge4 (T : Type) (d' : ety S T) (o : ops S T) n m : (4 <= n)%coq_nat -> inverse c d' o n m = inv_big c d' o n m.
Proof. move=> Hn. case: n Hn => [|[|[|[|k]]]] Hn; try nlia. by []. Qed.

Lemma z_det_units n m s : (4 <= n)%coq_nat -> rect n n m ->
  (forall k, (1 <= k)%coq_nat -> (k < n)%coq_nat -> z_unit (z_minor k m)) ->
  det c d z_ops n m s = (Ok (m_det z_arith n m), s).
Proof.
move=> Hn Rm Hu. have [cof ->] := det_ge4 d z_ops m s Hn.
rewrite (@det_big_int S z_comRingType c d z_ops Z.quot (z_exact S) z_HD z_HZ z_HU n m cof s Rm).
  by rewrite mu_z z_minor_full.
move=> k Hk. rewrite mu_z. apply/z_unitP. case: k Hk => [|k] Hk; first by left. apply: Hu; nlia.
Qed.
Lemma z_inverse_all n m s : (4 <= n)%coq_nat -> rect n n m ->
  exists r, inverse c d z_ops n m s = (Ok r, s) /\
  match r with
  | Some x => rect n n x /\
     ((z_inverse n m x /\ forall k, (1 <= k)%coq_nat -> (k <= n)%coq_nat -> z_unit (z_minor k m)) \/
      (exists k, (k < n)%coq_nat /\ (forall j, (1 <= j)%coq_nat -> (j <= k)%coq_nat -> z_unit (z_minor j m)) /\
         ~ z_unit (z_minor k.+1 m) /\ z_minor k.+1 m <> Z0 /\ forall b, (b < n)%coq_nat -> at2 z_arith x k b = Z0))
  | None => exists k, (k < n)%coq_nat /\ (forall j, (1 <= j)%coq_nat -> (j <= k)%coq_nat -> z_unit (z_minor j m)) /\ ~ z_unit (z_minor k.+1 m)
  end.
Proof.
move=> Hn Rm. rewrite (inverse_ge4 d z_ops m Hn).
have U k : upto (R := z_comRingType) m k -> forall j, (1 <= j)%coq_nat -> (j <= k)%coq_nat -> z_unit (z_minor j m).
  move=> H j Hj Hk. apply/z_unitP. have := H j. rewrite mu_z => E. apply: E. nlia.
have St k : stops (R := z_comRingType) m k -> (forall j, (1 <= j)%coq_nat -> (j <= k)%coq_nat -> z_unit (z_minor j m)) /\ ~ z_unit (z_minor k.+1 m).
  move=> [H1 H2]. split; first exact: U. move=> /z_unitP H. apply: H2. by rewrite mu_z.
have [r [Er Hr]] := @inv_big_int S z_comRingType c d z_ops Z.quot (z_exact S) z_HD z_HZ z_HU z_HN n m s Rm.
exists r. split=> //. case: r {Er} Hr => [x|]; last first.
  move=> [k [Hk /St [H1 H2]]]. exists k. split=> //. nlia.
case=> [[g [-> [E H]]]|[g [k [-> [Hk [/St [H1 H2] [H3 H4]]]]]]]; (split; first exact: mat_rect); [left|right].
- split; last exact: U. split; first exact: mat_rect.
  have EA := z_arithE. split.
    apply: (@mx_of_inj z_comRingType n); [exact: mat_rect|exact: mat_rect|].
    by rewrite -EA mx_mul mx_id mx_of_mat //; exact: mulmx1C.
  apply: (@mx_of_inj z_comRingType n); [exact: mat_rect|exact: mat_rect|].
  by rewrite -EA mx_mul mx_id mx_of_mat.
- exists k. split; first by nlia. split=> //. split=> //. split; first by rewrite -mu_z. move=> b Hb.
  have Hb' : (b < n)%N by apply/ltP. rewrite -z_arithE (@at2_matf z_comRingType) //. exact: H4.
Qed.
Lemma z_det_lu n (L U : list (list Z)) s : (4 <= n)%coq_nat ->
  (forall a k, (a < k)%coq_nat -> (k < n)%coq_nat -> at2 z_arith L a k = Z0) -> (forall a, (a < n)%coq_nat -> at2 z_arith L a a = Zpos xH) ->
  (forall k b, (b < k)%coq_nat -> (k < n)%coq_nat -> at2 z_arith U k b = Z0) -> (forall k, (k.+1 < n)%coq_nat -> at2 z_arith U k k <> Z0) ->
  det c d z_ops n (m_mul z_arith n n n L U) s = (Ok (m_det z_arith n (m_mul z_arith n n n L U)), s).
Proof.
move=> Hn HL HL1 HU HUd. have [cof ->] := det_ge4 d z_ops (m_mul z_arith n n n L U) s Hn.
pose l := at2 z_arith L : nat -> nat -> z_comRingType. pose u := at2 z_arith U : nat -> nat -> z_comRingType.
have H1 a k : (a < k)%N -> (k < n)%N -> l a k = 0 by move=> Ha Hk; apply: HL; nlia.
have H2 a : (a < n)%N -> l a a = 1 by move=> Ha; apply: HL1; nlia.
have H3 k b : (b < k)%N -> (k < n)%N -> u k b = 0 by move=> Ha Hk; apply: HU; nlia.
have H4 k : (k.+1 < n)%N -> u k k != 0 by move=> Hk; apply/eqP; apply: HUd; nlia.
have E : m_mul z_arith n n n L U = mat n n (lu_at (R := z_comRingType) n l u 0).
  rewrite -z_arithE /m_mul. apply: mat_ext' => a b _ _. rewrite sum_big /lu_at. by rewrite (eq_bigl xpredT).
rewrite E (@det_big_lu S z_comRingType c d z_ops Z.quot (z_exact S) z_HD z_HZ z_HX n l u H1 H2 H3 H4).
by rewrite -z_arithE m_det_mx mx_of_mat // (@det_lu _ n l u H1 H2 H3).
Qed.
End ZOps.
