(** * MxDet.v - determinant, cofactor and inverse over a field. *)
From Coq Require Import List Arith Bool Lia.
From Verif Require Import Rust Iter Elem VectorM MatIterM MatrixM ArithM OpsM SpecCommon SpecAlg.
From Verif Require Import IterProofs OwnProofs ChunkProofs VecProofs MatProofs AccProofs Sim DetLoop.
Set Warnings "-notation-overridden,-ambiguous-paths".
From mathcomp Require Import all_ssreflect all_algebra.
From Verif Require Import SpecMx MxLink.
Set Implicit Arguments.
Unset Strict Implicit.
Unset Printing Implicit Defensive.
Import GRing.Theory.
Local Open Scope ring_scope.

(** [lia] knows the operations of the standard library. *)
Ltac nlia := repeat (match goal with H : is_true (leq _ _) |- _ => move/leP: H => H | |- is_true (leq _ _) => apply/leP end);
  change addn with Nat.add in *; change muln with Nat.mul in *; change subn with Nat.sub in *; lia.

Section ComRing.
Variables (S : Type) (R : comRingType) (c : cfg) (d : ety S R) (o : ops S R).
Let A := ring_arith R.
Hypothesis HE : exact o A.
Implicit Types (m : list (list R)) (s : S).

Lemma det1_mx m : det_1 A m = \det (mx_of 1 m).
Proof. by rewrite det_mx11 mxE. Qed.
Lemma det_mx22 (M : 'M[R]_2) : \det M = M ord0 ord0 * M ord_max ord_max - M ord0 ord_max * M ord_max ord0.
Proof.
rewrite (expand_det_row _ ord0) !big_ord_recl big_ord0 addr0 /cofactor !det_mx11 !mxE /=.
rewrite expr0 expr1 mul1r mulN1r mulrN.
by congr (M _ _ * M _ _ - M _ _ * M _ _); apply: val_inj.
Qed.
Lemma det2_mx m : det_2 A m = \det (mx_of 2 m).
Proof. by rewrite det_mx22 !mxE /det_2 /= [at2 _ m 1 0 * _]mulrC. Qed.
Lemma det3_mx m : det_3 A m = \det (mx_of 3 m).
Proof.
rewrite (expand_det_row _ ord0) !big_ord_recl big_ord0 addr0 /cofactor !(det_mx22 (row' (_ : 'I_3) (_ : 'M_(3, 2)))) !mxE /=.
rewrite /bump /= !expr0 !expr1 !expr2 !mul1r /det_3 /=.
rewrite !(mulN1r, mulrN, mulNr, mul1r, opprK, mulrDr, mulrN1, opprD, mulrA).
set x := at2 _ _. 
set t1 := x 0%N 0%N * x 1%N 1%N * _. set t2 := x 0%N 1%N * x 1%N 2%N * _.
set t3 := x 0%N 2%N * x 1%N 0%N * _. set t4 := x 0%N 2%N * x 1%N 1%N * _.
set t5 := x 0%N 1%N * x 1%N 0%N * _. set t6 := x 0%N 0%N * x 1%N 2%N * _.
rewrite !(mulr1, addn0, add0n, addn1) -/t2 -/t3 -/t4 -/t5 !addrA.
by rewrite [LHS](ACl (1*6*5*2*3*4)%AC).
Qed.
Lemma det1_spec m s : rect 1 1 m -> OpsM.det1 c o m s = (Ok (\det (mx_of 1 m)), s).
Proof. move=> H. rewrite -det1_mx. exact: (sim_eq _ _ (sim_det1 false eq c o A (exact_sim o A HE) m m (Forall2_eq2 m) H) s). Qed.
Lemma det2_spec m s : rect 2 2 m -> det2 c o m s = (Ok (\det (mx_of 2 m)), s).
Proof. move=> H. rewrite -det2_mx. exact: (sim_eq _ _ (sim_det2 false eq c o A (exact_sim o A HE) m m (Forall2_eq2 m) H) s). Qed.
Lemma det3_spec m s : rect 3 3 m -> det3 c o m s = (Ok (\det (mx_of 3 m)), s).
Proof. move=> H. rewrite -det3_mx. exact: (sim_eq _ _ (sim_det3 false eq c o A (exact_sim o A HE) m m (Forall2_eq2 m) H) s). Qed.

(** Signs and cofactors, for a correct determinant of size [n]. *)
Lemma mod2 k : Nat.eqb (k mod 2) 0 = ~~ odd k.
Proof.
have E : k mod 2 = odd k :> nat.
  rewrite {1}(divn_eq k 2) modn2 addnC. rewrite -plusE -multE Nat.mod_add //. by case: (odd k).
by rewrite E; case: (odd k).
Qed.
Lemma cof_sign_spec i j s : (i + j < W c)%coq_nat -> cof_sign c o i j s = (Ok ((-1) ^+ (i + j)), s).
Proof.
move=> H. rewrite /cof_sign /bind /usz_add. case: (Nat.ltb_spec (i + j) (W c)) => [_|]; last by lia.
rewrite /ret mod2 -signr_odd. case: (odd _) => /=.
  by rewrite (ex_neg _ _ HE) (ex_one _ _ (ex_semi _ _ HE)) /= expr1.
by rewrite (ex_one _ _ (ex_semi _ _ HE)) expr0.
Qed.
Lemma cof_gen n f (i j : 'I_n.+1) : 
  (-1) ^+ (i + j) * \det (mxf n (fun a b => f (skip i a) (skip j b))) = cofactor (mxf n.+1 f) i j :> R.
Proof. by rewrite mxf_minor. Qed.
Lemma cof_big_spec n det' m (i j : 'I_n.+1) s :
  (2 * n.+1 <= W c)%coq_nat -> rect n.+1 n.+1 m ->
  (forall m' s, rect n n m' -> det' m' s = (Ok (\det (mx_of n m')), s)) ->
  cof_big c d o n.+1 det' m (nat_of_ord i, nat_of_ord j) s = (Ok (cofactor (mx_of n.+1 m) i j), s).
Proof.
move=> HW Rm Hd. have Hi : (i < n.+1)%coq_nat by apply/ltP. have Hj : (j < n.+1)%coq_nat by apply/ltP.
rewrite {1}(mat_of Rm) /cof_big /bind /assert !ltbE !ltn_ord [_ && _]/= /ret.
rewrite (submatrix_spec c d o A HE) //; last by nlia.
rewrite cof_sign_spec; last by nlia.
rewrite Nat.sub_succ Nat.sub_0_r Hd; last by exact: mat_rect.
by rewrite (ex_mul _ _ (ex_semi _ _ HE)) /= mx_of_mat // cof_gen.
Qed.
Lemma cofactor_gen n m (i j : 'I_n) s : (1 < n)%N -> (2 * n <= W c)%coq_nat -> rect n n m ->
  (forall m' s, rect n.-1 n.-1 m' -> det c d o n.-1 m' s = (Ok (\det (mx_of n.-1 m')), s)) ->
  OpsM.cofactor c d o n m (nat_of_ord i, nat_of_ord j) s = (Ok (cofactor (mx_of n m) i j), s).
Proof.
case: n i j => [|[|[|[|n]]]] // i j _ HW Rm Hd.
- rewrite /OpsM.cofactor /cof2 /bind cof_sign_spec //; last first.
    move: (ltn_ord i) (ltn_ord j) => Hi Hj; nlia.
  have Hs : forall k : 'I_2, usz_sub (S:=S) c 1 k s = (Ok (1 - k)%N, s).
    by move=> k; rewrite /usz_sub; case: (Nat.leb_spec k 1) => //; move: (ltn_ord k) => Hk; nlia.
  rewrite !Hs {1}(mat_of Rm) (ix_mat o A HE); [|by nlia|by nlia].
  rewrite (ex_mul _ _ (ex_semi _ _ HE)). congr (Ok _, _). rewrite /cofactor /= det_mx11 !mxE. congr (_ * at2 _ _ _ _).
    by case: i => [[|[|]]].
  by case: j => [[|[|]]].
- rewrite -(@cof_big_spec _ (det2 c o)) //.
  rewrite /OpsM.cofactor /cof3 /cof_big {1 2}(mat_of Rm). rewrite /bind /assert !ltbE !ltn_ord [_ && _]/= /ret.
  rewrite (submatrix_spec c d o A HE); [|by apply/ltP|by apply/ltP|by nlia].
  rewrite cof_sign_spec; last by move: (ltn_ord i) (ltn_ord j) => Hi Hj; nlia.
  by rewrite (submatrix_spec c d o A HE); [|by apply/ltP|by apply/ltP|by nlia].
- rewrite /OpsM.cofactor. apply: (@cof_big_spec n.+3 (det c d o n.+3) m i j s) => //.
Qed.

End ComRing.

Section Field.
Variables (S : Type) (F : fieldType) (c : cfg) (d : ety S F) (o : ops S F).
Let A := ring_arith F.
Hypothesis HF : exact_field o.
Let HE : exact o A := xf_ring HF.
Implicit Types (m : list (list F)) (s : S).

Definition tri (n i : nat) (f : nat -> nat -> F) : Prop :=
  forall a b, (b < i)%N -> (b < a)%N -> (a < n)%N -> f a b = 0.
Definition outer D n i m : Prop := exists f, m = mat n n f /\ \det (mxf n f) = D /\ tri n i f.
Definition inner D n i j m : Prop := exists f, m = mat n n f /\ \det (mxf n f) = D /\ tri n i f /\
  forall a, (i < a)%N -> (a < j)%N -> (a < n)%N -> f a i = 0.

Lemma expand_spec n m cof s : rect n.+1 n.+1 m ->
  (forall (i : 'I_n.+1) s, cof (nat_of_ord i, 0%N) s = (Ok (cofactor (mx_of n.+1 m) i ord0), s)) ->
  expand_col0 o n.+1 m cof s = (Ok (\det (mx_of n.+1 m)), s).
Proof.
move=> Rm Hc. rewrite /expand_col0.
pose g k := at2 A m k 0 * (if insub k is Some i then cofactor (mx_of n.+1 m) (i : 'I_n.+1) ord0 else 0).
rewrite (fold_range _ g _ (fun x y => x + y)); last first.
- move=> i s0 /ltP Hi. rewrite /bind {1}(mat_of Rm) (ix_mat o A HE); [|by apply/ltP|by nlia].
  rewrite (Hc (Ordinal Hi)) (ex_mul _ _ (ex_semi _ _ HE)) /g insubT. by [].
- exact: (ex_add _ _ (ex_semi _ _ HE)).
rewrite (ex_zero _ _ (ex_semi _ _ HE)) -/(sum A n.+1 g) sum_big. congr (Ok _, _).
rewrite (expand_det_col _ ord0). apply: eq_bigr => i _. rewrite /g valK !mxE. by [].
Qed.

Lemma det_big_spec n m cof s : rect n.+1 n.+1 m ->
  (forall (i : 'I_n.+1) s, cof (nat_of_ord i, 0%N) s = (Ok (cofactor (mx_of n.+1 m) i ord0), s)) ->
  det_big c d o n.+1 m cof s = (Ok (\det (mx_of n.+1 m)), s).
Proof.
move=> Rm Hc. rewrite /det_big. move E: (n.+1) => N. rewrite E in Rm. set D := \det _.
rewrite /bind (mclone_id c d) //; last exact: (ex_clone _ _ (ex_semi _ _ HE)).
match goal with |- context [for_range_ret _ _ ?b _ _] => set body := b end.
have HD : D = \det (mxf N (at2 A m)) by rewrite /D; congr (\det _); apply/matrixP=> i j; rewrite !mxE.
have [|| r [Er Hr]] := for_range_ret_inv body (outer D N) (fun v => v = D) s 0 N m (Nat.le_0_l N).
- exists (at2 A m). split; first exact: mat_of. by split.
- move=> i st [_ Hi] [f [Est [Ed Ht]]]. rewrite /body.
  match goal with |- context [for_range_ret _ _ ?b _ _] => set ibody := b end.
  have [r [Er Hr]] : exists r, for_range_ret (i + 1) N ibody st s = (Ok r, s) /\
      match r with inl st' => inner D N i N st' | inr v => v = D end.
    apply: for_range_ret_inv; first by nlia.
      exists f; split=> //; split=> //; split=> // a Ha Hb; nlia.
    move=> j st' [Hij Hj] [f' [Est' [Ed' [Ht' Hc']]]]. rewrite /ibody {}Est' /bind.
    have Hi' : (i < N)%coq_nat by nlia.
    rewrite (mindex_in _ i i (f' i i)); last exact: entry_mat.
    rewrite (xf_is_zero HF). case: eqP => [_|/eqP Hp].
      exists (inr D). split=> //. by rewrite -E expand_spec // -?E // /D E.
    rewrite !(ix_mat o A HE) // (xf_div HF) // (elim_row_spec o A HE) //; last by nlia.
    exists (inl (mat N N (f_elim A i j (f' j i / f' i i) f'))). split=> //.
    exists (f_elim A i j (f' j i / f' i i) f'). split=> //. split.
      rewrite det_elim //; [by apply/ltP|by apply/ltP|by apply/eqP; nlia].
    split.
      move=> a b Hb Hab Ha. rewrite /f_elim eqbE. case: eqP => [->|_]; last exact: Ht'.
      rewrite (Ht' j b) //; [|by nlia|by nlia]. rewrite (Ht' i b) //=; last by nlia. by rewrite mul0r subr0.
    move=> a Ha Haj HaN. rewrite /f_elim eqbE. case: eqP => [->|Hne]; last by apply: Hc' => //; nlia.
    by rewrite /= mulrC divfK // subrr.
  rewrite -/(ibody) Er. exists r. split=> //. case: r Er Hr => // st' _ [f' [Est' [Ed' [Ht' Hc']]]].
  exists f'. split=> //. split=> // a b Hb Hab Ha. 
  case: (leqP i b) => Hib; last exact: Ht'.
  have -> : b = i by nlia. apply: Hc' => //; nlia.
rewrite Er. case: r Er Hr => [st|v] _ => [[f [Est [Ed Ht]]]|->] //.
rewrite Est (fold_range _ (fun i => f i i) _ (fun x y => x * y)); last first.
- move=> i s0 Hi. exact: (ix_mat o A HE).
- exact: (ex_mul _ _ (ex_semi _ _ HE)).
rewrite (ex_one _ _ (ex_semi _ _ HE)) prod_big -det_upper ?Ed //.
by move=> i j Hji Hi; apply: Ht => //; nlia.
Qed.

Lemma det_spec n : (0 < n)%N -> (2 * n <= W c)%coq_nat -> forall m s, rect n n m ->
  det c d o n m s = (Ok (\det (mx_of n m)), s).
Proof.
elim: n => [//|n IH] _ HW m s Rm. case: n IH HW Rm => [|[|[|n]]] IH HW Rm.
- exact: (det1_spec c HE).
- exact: (det2_spec c HE).
- exact: (det3_spec c HE).
apply: det_big_spec => // i s0. apply: (@cof_big_spec _ _ c d o HE _ _ _ i ord0 s0) => // m' s1 Rm'.
apply: IH => //. nlia.
Qed.

Lemma cofactor_spec n m (i j : 'I_n) s : (1 < n)%N -> (2 * n <= W c)%coq_nat -> rect n n m ->
  OpsM.cofactor c d o n m (nat_of_ord i, nat_of_ord j) s = (Ok (cofactor (mx_of n m) i j), s).
Proof.
move=> Hn HW Rm. apply: (@cofactor_gen _ _ c d o HE) => // m' s' R'. apply: det_spec => //; first by case: n Hn {i j HW Rm R'} => [|[]].
by case: n Hn HW {i j Rm R'} => [|n] //= _ HW; nlia.
Qed.

(** ** Inverse above size 3 *)
(** Before step [i]: [inv * m = mat]; the columns of [mat] before [i] and those of [inv]
    from [i] on are those of the identity. *)
Definition delta (a b : nat) : F := if a == b then 1 else 0.
Definition ginv n m i (st : list (list F) * list (list F)) : Prop :=
  exists f g, st = (mat n n f, mat n n g) /\ mxf n g *m mx_of n m = mxf n f /\
  (forall a b, (a < n)%N -> (b < i)%N -> f a b = delta a b) /\
  (forall a b, (a < n)%N -> (b < n)%N -> (i <= b)%N -> g a b = delta a b).

(** The leading blocks satisfy the same equation, so [mat] carries the leading principal
    minors of [m]. *)
Lemma ginv_block n m i f g k : (i <= k)%N -> (k <= n)%N ->
  mxf n g *m mx_of n m = mxf n f ->
  (forall a b, (a < n)%N -> (b < n)%N -> (i <= b)%N -> g a b = delta a b) ->
  mxf k g *m mx_of k m = mxf k f.
Proof.
move=> Hik Hkn E Hg. apply/matrixP=> a b. rewrite !mxE.
have Ha : (a < n)%N by apply: leq_trans Hkn. have Hb : (b < n)%N by apply: leq_trans Hkn.
move/matrixP: E => /(_ (Ordinal Ha) (Ordinal Hb)). rewrite !mxE /= => <-.
rewrite (eq_bigr (fun l : 'I_k => g a l * at2 A m l b)); last by move=> l _; rewrite !mxE.
rewrite [RHS](eq_bigr (fun l : 'I_n => g a l * at2 A m l b)); last by move=> l _; rewrite !mxE.
rewrite (big_ord_widen n (fun l => g a l * at2 A m l b) Hkn) big_mkcond. apply: eq_bigr => l _.
case: ltnP => // Hkl. rewrite Hg //; last exact: leq_trans Hkl. 
rewrite /delta. case: eqP => [Ea|_]; last by rewrite mul0r. by move: (ltn_ord a); rewrite Ea ltnNge Hkl.
Qed.
Lemma ginv_minor n m i st : (i <= n)%N -> ginv n m i st -> \det (mx_of i m) != 0.
Proof.
move=> Hi [f [g [_ [E [Hf Hg]]]]]. have := ginv_block (leqnn i) Hi E Hg.
have -> : mxf i f = 1%:M.
  apply/matrixP=> a b. rewrite !mxE Hf //; last by apply: leq_trans Hi. rewrite /delta -val_eqE /=. by case: (_ == _).
move/(congr1 determinant). rewrite det_mulmx det1 => H. apply/eqP=> H0. move: H. rewrite H0 mulr0 => /eqP.
by rewrite eq_sym oner_eq0.
Qed.
Lemma det_last i g : (forall a, (a < i.+1)%N -> g a i = delta a i) -> \det (mxf i.+1 g) = \det (mxf i g).
Proof.
move=> H. rewrite (expand_det_col _ ord_max) (bigD1 ord_max) //= big1 ?addr0; last first.
  move=> a Ha. rewrite mxE H // /delta. have -> : (nat_of_ord a == i) = false; last by rewrite mul0r.
  apply/negbTE. by move: Ha; rewrite -val_eqE.
rewrite mxE H // /delta eqxx mul1r /cofactor -signr_odd /= addnn odd_double expr0 mul1r.
congr (\det _). apply/matrixP=> a b. rewrite !mxE !lift_max. by [].
Qed.
Lemma ginv_pivot n m i f g : (i < n)%N -> ginv n m i (mat n n f, mat n n g) ->
  f i i = 0 -> \det (mx_of i.+1 m) = 0.
Proof.
move=> Hi [f' [g' [[Ef Eg] [E [Hf Hg]]]]] H0.
have {}H0 : f' i i = 0 by rewrite -H0; symmetry; apply: (mat_inj n n _ _ Ef); apply/ltP.
have Hb := ginv_block (leqnSn i) Hi E Hg. have Hb0 := ginv_block (leqnn i) (ltnW Hi) E Hg.
have Hm : mxf i f' = 1%:M.
  apply/matrixP=> a b. rewrite !mxE Hf //; last by apply: ltn_trans Hi. rewrite /delta -val_eqE /=. by case: (_ == _).
have Hu : \det (mxf i.+1 f') = 0.
  rewrite det_upper ?big_ord_recr /= ?H0 ?mulr0 // => a b Hba Ha. rewrite Hf; [|exact: leq_trans Hi|exact: leq_trans Hba _].
  rewrite /delta. case: eqP => // Eab. by move: Hba; rewrite Eab ltnn.
move: (congr1 determinant Hb) (congr1 determinant Hb0). rewrite !det_mulmx Hu Hm det1 det_last => [|a Ha]; last first.
  by rewrite Hg //; exact: leq_trans Hi.
move/eqP. rewrite mulf_eq0 => /orP [/eqP ->|/eqP -> //]. by rewrite mul0r => /eqP; rewrite eq_sym oner_eq0.
Qed.

Lemma ginv_scale n m i f g : (i < n)%N -> f i i != 0 ->
  mxf n g *m mx_of n m = mxf n f ->
  (forall a b, (a < n)%N -> (b < i)%N -> f a b = delta a b) ->
  (forall a b, (a < n)%N -> (b < n)%N -> (i <= b)%N -> g a b = delta a b) ->
  let f' := f_scale A i (1 / f i i) f in let g' := f_scale A i (1 / f i i) g in
  [/\ mxf n g' *m mx_of n m = mxf n f',
      f' i i = 1,
      (forall a b, (a < n)%N -> (b < i)%N -> f' a b = delta a b) &
      (forall a b, (a < n)%N -> (b < n)%N -> (i < b)%N -> g' a b = delta a b)].
Proof.
move=> Hi Hp E Hf Hg f' g'. split.
- exact: scale_lin.
- by rewrite /f' /f_scale eqbE eqxx /= div1r divff.
- move=> a b Ha Hb. rewrite /f' /f_scale eqbE. case: eqP => [->|_]; last exact: Hf.
  rewrite Hf //. rewrite /delta. case: eqP => [Eb|_]; last by rewrite /= mul0r. by move: Hb; rewrite Eb ltnn.
- move=> a b Ha Hb Hib. rewrite /g' /f_scale eqbE. case: eqP => [->|_]; last by apply: Hg => //; exact: ltnW.
  rewrite Hg //; last exact: ltnW. rewrite /delta. case: eqP => [Eb|_]; last by rewrite /= mul0r. by move: Hib; rewrite Eb ltnn.
Qed.

Lemma inv_big_spec n m s : rect n n m -> exists r, inv_big c d o n m s = (Ok r, s) /\
  match r with
  | Some x => (exists g, x = mat n n g /\ mxf n g *m mx_of n m = 1%:M) /\
              (forall k, (k <= n)%N -> \det (mx_of k m) != 0)
  | None => exists i, (i < n)%N /\ \det (mx_of i.+1 m) = 0
  end.
Proof.
move=> Rm. rewrite /inv_big /bind (mclone_id c d) //; last exact: (ex_clone _ _ (ex_semi _ _ HE)).
have -> : midentity c d o n s = (Ok (m_id A n), s).
  exact: (sim_eqm _ _ (sim_midentity false eq c d o A (exact_sim_semi _ _ (ex_semi _ _ HE)) n) s).
match goal with |- context [for_range_ret _ _ ?b _ _] => set body := b end.
have [r [Er Hr]] : exists r, for_range_ret 0 n body (m, m_id A n) s = (Ok r, s) /\
    match r with inl st => ginv n m n st /\ (forall k, (k <= n)%N -> \det (mx_of k m) != 0)
    | inr _ => exists i, (i < n)%N /\ \det (mx_of i.+1 m) = 0 end.
  pose G i st := ginv n m i st /\ (forall k, (k <= i)%N -> \det (mx_of k m) != 0).
  apply: (for_range_ret_inv _ G); first by nlia.
    split; last by case=> // _; rewrite det_mx00 oner_neq0.
    exists (at2 A m), (at2 A (m_id A n)). rewrite -!mat_of //; last exact: mat_rect. split=> //. 
    split; first by rewrite -[mxf n (at2 A (m_id A n))]/(mx_of n (m_id A n)) mx_id mul1mx.
    split=> // a b Ha Hb _. by rewrite at2_matf // eqbE.
  move=> i st [_ /ltP Hi] [[f [g [Est [E [Hf Hg]]]]] Hmin]. rewrite /body {}Est [fst _]/= (ix_mat o A HE); [|by apply/ltP|by apply/ltP].
  rewrite (xf_is_zero HF). case: eqP => [H0|/eqP Hp].
    exists (inr tt). split=> //. exists i. split=> //. apply: (@ginv_pivot n m i f g) => //. by exists f, g.
  rewrite (ex_one _ _ (ex_semi _ _ HE)) (xf_div HF) // (scale_rows_spec o A HE); last by apply/ltP.
  have [E1 Hpiv Hf1 Hg1] := ginv_scale Hi Hp E Hf Hg.
  move: (f_scale A i _ f) (f_scale A i _ g) E1 Hpiv Hf1 Hg1 => f1 g1 E1 Hpiv Hf1 Hg1 {f g E Hf Hg Hp}.
  match goal with |- context [for_range _ _ ?b _ _] => set ibody := b end.
  have [r [Er Hr]] : exists r, for_range 0 n ibody (mat n n f1, mat n n g1) s = (Ok r, s) /\
     exists f g, r = (mat n n f, mat n n g) /\ mxf n g *m mx_of n m = mxf n f /\ 
       (forall b, f i b = f1 i b) /\ (forall b, g i b = g1 i b) /\
       (forall a b, (a < n)%N -> (b < i)%N -> f a b = delta a b) /\
       (forall a b, (a < n)%N -> (b < n)%N -> (i < b)%N -> g a b = delta a b) /\
       (forall a, (a < n)%N -> (a < n)%N -> f a i = delta a i).
    pose J j (r : list (list F) * list (list F)) := exists f g, r = (mat n n f, mat n n g) /\ mxf n g *m mx_of n m = mxf n f /\ 
       (forall b, f i b = f1 i b) /\ (forall b, g i b = g1 i b) /\
       (forall a b, (a < n)%N -> (b < i)%N -> f a b = delta a b) /\
       (forall a b, (a < n)%N -> (b < n)%N -> (i < b)%N -> g a b = delta a b) /\
       (forall a, (a < n)%N -> (a < j)%N -> f a i = delta a i).
    apply: (for_range_inv _ J); first by nlia.
      exists f1, g1. by do !split.
    move=> j st1 [_ /ltP Hj] [f [g [-> [E [Hfi [Hgi [Hf [Hg Hc]]]]]]]]. rewrite /ibody eqbE. case: eqP => [Eij|/eqP Hij].
      exists (mat n n f, mat n n g). split=> //. exists f, g. do !split=> //.
      move=> a Ha Haj. case: (a =P i) => [->|Hne]; first by rewrite Hfi Hpiv /delta eqxx.
      apply: Hc => //. nlia.
    rewrite [fst _]/= (ix_mat o A HE); [|by apply/ltP|by apply/ltP].
    rewrite (elim_rows_spec o A HE); [|by apply/ltP|by apply/ltP|by apply/eqP].
    eexists. split; first reflexivity.
    exists (f_elim A i j (f j i) f), (f_elim A i j (f j i) g). split=> //. split; first exact: elim_lin.
    split; first by move=> b; rewrite /f_elim eqbE (negbTE Hij) Hfi.
    split; first by move=> b; rewrite /f_elim eqbE (negbTE Hij) Hgi.
    split.
      move=> a b Ha Hb. rewrite /f_elim eqbE. case: eqP => [->|_]; last exact: Hf.
      rewrite (Hf j b) // (Hf i b) // /= /delta. have -> : (i == b) = false by apply/eqP=> Eb; move: Hb; rewrite Eb ltnn.
      by rewrite mul0r subr0.
    split.
      move=> a b Ha Hb Hib. rewrite /f_elim eqbE. case: eqP => [->|_]; last exact: Hg.
      rewrite (Hg j b) // (Hg i b) // /= /delta. have -> : (i == b) = false by apply/eqP=> Eb; move: Hib; rewrite Eb ltnn.
      by rewrite mul0r subr0.
    move=> a Ha Haj. rewrite /f_elim eqbE. case: eqP => [->|Hne].
      by rewrite Hfi Hpiv /= mul1r subrr /delta eq_sym (negbTE Hij).
    apply: Hc => //. nlia.
  rewrite Er. eexists. split; first reflexivity. case: Hr => f [g [-> [E [_ [_ [Hf [Hg Hc]]]]]]].
  suff H : ginv n m (i + 1) (mat n n f, mat n n g).
    split=> // k Hk. case: (leqP k i) => Hki; first exact: Hmin.
    have -> : k = (i + 1)%N by nlia.
    apply: (@ginv_minor n m (i + 1)%N _ _ H). nlia.
  exists f, g. split=> //. split=> //. split.
    move=> a b Ha Hb. case: (b =P i) => [->|Hne]; first exact: Hc. apply: Hf => //. nlia.
  move=> a b Ha Hb Hib. apply: Hg => //. nlia.
rewrite Er. case: r Er Hr => [st|[]] Er Hr; last by eexists; split; [reflexivity|].
case: Hr => [[f [g [-> [E [Hf Hg]]]]] Hmin]. eexists. split; first reflexivity. split=> //. exists g. split=> //. rewrite E.
apply/matrixP=> a b. rewrite !mxE Hf // /delta -val_eqE /=. by case: (_ == _).
Qed.

(** ** Inverse of size 1 to 3: the adjugate over the determinant. *)
Lemma wide : (32 < W c)%coq_nat.
Proof. exact: W_gt. Qed.
Lemma at2_map (g : F -> F) n m (i j : 'I_n) : rect n n m -> at2 A (List.map (List.map g) m) i j = g (at2 A m i j).
Proof.
move=> Rm. rewrite (map_at2 A n n) // at2_matf //.
Qed.
Lemma adj_inverse n m x : (\det (mx_of n m) != 0) -> rect n n x ->
  mx_of n x = (\det (mx_of n m))^-1 *: \adj (mx_of n m) -> is_inverse n m x.
Proof.
move=> Hd Rx Ex. split=> //. split; apply: (@mx_of_inj _ n); try exact: mat_rect.
- by rewrite mx_mul mx_id Ex -scalemxAr mul_mx_adj scale_scalar_mx mulVf.
- by rewrite mx_mul mx_id Ex -scalemxAl mul_adj_mx scale_scalar_mx mulVf.
Qed.
Definition inv_correct n m (r : option (list (list F))) : Prop :=
  match r with
  | Some x => \det (mx_of n m) != 0 /\ is_inverse n m x
  | None => \det (mx_of n m) = 0
  end.
Lemma inv1_spec m s : rect 1 1 m -> exists r, inv1 c d o m s = (Ok r, s) /\ inv_correct 1 m r.
Proof.
move=> Rm. have HW := wide. rewrite /inv1 /bind (idx_spec c o A HE) // (xf_is_zero HF).
have Ed : \det (mx_of 1 m) = at2 A m 0 0 by rewrite det_mx11 mxE.
case: eqP => [H0|/eqP H0].
  exists None. split=> //. by rewrite /= Ed.
rewrite (ex_one _ _ (ex_semi _ _ HE)) (xf_div HF) // mnew_spec //; last by nlia.
eexists. split; first reflexivity. rewrite /= Ed. split=> //. apply: adj_inverse; rewrite ?Ed //; first by do !constructor.
apply/matrixP=> i j. rewrite !mxE !ord1 /= /cofactor /= det_mx00 expr0 !mulr1. by rewrite /at2 /= div1r.
Qed.
Lemma inv2_spec m s : rect 2 2 m -> exists r, inv2 c d o m s = (Ok r, s) /\ inv_correct 2 m r.
Proof.
move=> Rm. have HW := wide. rewrite /inv2 /bind (det2_spec c HE) // (xf_is_zero HF).
case: eqP => [H0|/eqP H0]; first by exists None.
rewrite !(idx_spec c o A HE) //; try nlia. rewrite !(ex_neg _ _ HE) !(idx_spec c o A HE) //; try nlia.
rewrite !(ex_neg _ _ HE) !(idx_spec c o A HE) //; try nlia. rewrite mnew_spec //; last by nlia.
rewrite (mscale_pure c d o A HE 2 2 _ (fun e => e / \det (mx_of 2 m))) //; try nlia; last by move=> e s0; rewrite (xf_div HF).
eexists. split; first reflexivity. rewrite /=. split=> //. apply: adj_inverse => //; first by do !constructor.
apply/matrixP=> i j. rewrite !mxE /cofactor det_mx11 !mxE [RHS]mulrC.
case: i => [[|[|]]] //= Hi; case: j => [[|[|]]] //= Hj; rewrite ?expr0 ?expr1 ?mul1r ?mulN1r //.
by rewrite -signr_odd /= expr0 mul1r.
by do !constructor.
Qed.
Lemma inv3_spec m s : rect 3 3 m -> exists r, inv3 c d o m s = (Ok r, s) /\ inv_correct 3 m r.
Proof.
move=> Rm. have HW := wide. rewrite /inv3 /bind (det3_spec c HE) // (xf_is_zero HF).
case: eqP => [H0|/eqP H0]; first by exists None.
rewrite !(ms_spec c o A HE) //; try nlia. rewrite mnew_spec //; last by nlia.
rewrite (mscale_pure c d o A HE 3 3 _ (fun e => e / \det (mx_of 3 m))) //; try nlia; [|by do !constructor|by move=> e s0; rewrite (xf_div HF)].
eexists. split; first reflexivity. rewrite /=. split=> //. apply: adj_inverse => //; first by do !constructor.
apply/matrixP=> i j. rewrite !mxE /cofactor (det_mx22 (row' (_ : 'I_3) (_ : 'M_(3, 2)))) !mxE [RHS]mulrC.
have sgn2 : (-1) ^+ 2 = 1 :> F by rewrite -signr_odd expr0.
have sgn3 : (-1) ^+ 3 = -1 :> F by rewrite -signr_odd expr1.
have sgn4 : (-1) ^+ 4 = 1 :> F by rewrite -signr_odd expr0.
case: i => [[|[|[|]]]] //= Hi; case: j => [[|[|[|]]]] //= Hj; rewrite ?expr0 ?expr1 ?mul1r ?mulN1r ?sgn2 ?sgn3 ?sgn4 ?mul1r ?mulN1r ?opprB //.
Qed.

(** ** All sizes *)
Lemma left_inverse n m g : rect n n m -> mxf n g *m mx_of n m = 1%:M -> is_inverse n m (mat n n g).
Proof.
move=> Rm E. have Rg : rect n n (mat n n g) by exact: mat_rect. have E2 := mulmx1C E.
have Eg : mx_of n (mat n n g) = mxf n g by rewrite mx_of_mat.
split=> //. split; apply: (@mx_of_inj _ n); try exact: mat_rect; by rewrite mx_mul mx_id Eg.
Qed.
Lemma inverse_big n m s : rect n.+4 n.+4 m -> exists r, inverse c d o n.+4 m s = (Ok r, s) /\
  match r with
  | Some x => is_inverse n.+4 m x /\ (forall k, (k <= n.+4)%N -> \det (mx_of k m) != 0)
  | None => exists k, (0 < k <= n.+4)%N /\ \det (mx_of k m) = 0
  end.
Proof.
move=> Rm. have [r [E H]] := inv_big_spec s Rm. exists r. split=> //. case: r E H => [x|] _.
  move=> [[g [-> Eg]] Hm]. split=> //. exact: left_inverse.
by move=> [i [Hi Ei]]; exists i.+1.
Qed.
Lemma inverse_small n m s : (0 < n <= 3)%N -> rect n n m -> exists r, inverse c d o n m s = (Ok r, s) /\ inv_correct n m r.
Proof.
case: n => [|[|[|[|]]]] // _ Rm; [exact: inv1_spec|exact: inv2_spec|exact: inv3_spec].
Qed.
End Field.
