(** * PropsCostDet.v - C72, C73: how many element operations determinant and inverse perform. *)
From Coq Require Import List Arith Bool Lia.
From Verif Require Import Rust Iter Elem VectorM MatIterM MatrixM ArithM OpsM SpecCommon SpecAlg Harness.
From Verif Require Import Sim DetLoop OpsPure SpecCost CostProofs CostDet.
Set Warnings "-notation-overridden,-ambiguous-paths".
From mathcomp Require Import all_ssreflect all_algebra.
From Verif Require Import SpecMx MxLink MxDet.
Set Implicit Arguments.
Unset Strict Implicit.
Unset Printing Implicit Defensive.
Import GRing.Theory.
Local Open Scope ring_scope.

Section Field.
Variable F : fieldType.
Let A := ring_arith F.
Let dv := fun x y : F => x / y.
Let iz := fun x : F => x == 0.
Implicit Types (m : list (list F)).
Definition keeps n m (f : nat -> nat -> F) : Prop := forall k, (k <= n)%N -> \det (mxf k f) = \det (mx_of k m).
Definition nz n i (f : nat -> nat -> F) : Prop := forall a, (a < i)%N -> (a.+1 < n)%N -> f a a != 0.
Definition Out n m i st := exists f, st = mat n n f /\ keeps n m f /\ tri n i f /\ nz n i f.
Definition Inn n m i j st := exists f, st = mat n n f /\ keeps n m f /\ tri n i f /\ nz n i f /\
  (forall a, (i < a)%N -> (a < j)%N -> (a < n)%N -> f a i = 0) /\ ((i.+1 < j)%N -> f i i != 0).
Lemma keeps_elim n m i j x f : (i < j)%N -> (j < n)%N -> keeps n m f -> keeps n m (f_elim A i j x f).
Proof.
move=> Hij Hj H k Hk. rewrite -(H k Hk). case: (ltnP j k) => Hjk.
- apply: det_elim => //; [exact: ltn_trans Hij Hjk|by rewrite ltn_eqF].
- congr (\det _). apply: mxf_ext => a b /ltP Ha _. rewrite /f_elim eqbE. case: eqP => // E. by rewrite E ltnNge Hjk in Ha.
Qed.
Lemma block_det n m i f k : (k <= i.+1)%N -> (k <= n)%N -> keeps n m f -> tri n i f -> \det (mx_of k m) = \prod_(a < k) f a a.
Proof.
move=> Hki Hkn H Ht. rewrite -(H k Hkn) det_upper // => a b Hba Ha. apply: Ht => //.
- by rewrite -ltnS; apply: leq_trans Hki; apply: leq_ltn_trans Ha.
- exact: leq_trans Ha Hkn.
Qed.
Lemma step_inv n m cof i st : (i < n)%N -> Out n m i st ->
  match p_step A dv iz n m cof i st with
  | inl st' => Out n m (i + 1) st'
  | inr _ => (i.+1 < n)%N /\ \det (mx_of i.+1 m) = 0
  end.
Proof.
move=> Hi [f [Est [Hk [Ht Hz]]]]. rewrite /p_step.
match goal with |- context [ret_fold ?g _ _] => set body := g end.
have HR := @ret_fold_ind _ _ body (Inn n m i) (fun _ => (i.+1 < n)%N /\ \det (mx_of i.+1 m) = 0) (Nat.sub n (Nat.add i 1)) (Nat.add i 1) st.
have P1 : Inn n m i (Nat.add i 1) st.
  exists f. do 4 (split=> //). split=> [a H1 H2|H1]; exfalso; move: H1; rewrite ?[Nat.add i 1]Nat.add_1_r => H1; nlia.
have {}HR := HR P1. move: HR. match goal with |- (?P -> _) -> _ => have P2 : P end; last move=> /(_ P2) {P2}.
  move=> j st' [Hj1 Hj2] [g [Eg [Gk [Gt [Gz [Gc Gp]]]]]].
  have Hjn : (j < n)%N by clear -Hj1 Hj2 Hi; nlia.
  have Hij : (i < j)%N by clear -Hj1; nlia.
  rewrite /body Eg /iz !at2_matf; [|nlia..].
  case: eqP => [E|/eqP Hp].
    split; first by nlia. rewrite (@block_det n m i g) //. by rewrite big_ord_recr /= E mulr0.
  exists (f_elim A i j (g j i / g i i) g). split.
    by rewrite /p_elim; apply: mat_ext' => a b Ha Hb; rewrite /f_elim !at2_mat //; nlia.
  split; first by apply: keeps_elim => //; nlia. split.
    move=> a b Hb Hba Ha. rewrite /f_elim eqbE. case: eqP => [->|_]; last exact: Gt.
    rewrite (Gt j b) //; last by clear -Hb Hij; nlia. rewrite (Gt i b) //=. by rewrite mul0r subr0.
  split.
    move=> a Ha Han. rewrite /f_elim eqbE. case: (a =P j) => [E|_]; last exact: Gz.
    exfalso; nlia.
  split.
    move=> a Ha Haj HaN. rewrite /f_elim eqbE. case: eqP => [->|Hne]; last by apply: Gc => //; nlia.
    by rewrite /= mulrC divfK // subrr.
  move=> _. rewrite /f_elim eqbE. case: (i =P j) => [E|_] //. exfalso. nlia.
case: (ret_fold body _ _) => // st' [g [Eg [Gk [Gt [Gz [Gc Gp]]]]]]. exists g. split=> //. split=> //. split.
- move=> a b Hb Hba Ha. case: (ltnP b i) => Hbi; first exact: Gt.
  have -> : b = i by nlia. apply: Gc => //; nlia.
- move=> a Ha Han. case: (ltnP a i) => Hai; first exact: Gz.
  have -> : a = i by nlia. apply: Gp. nlia.
Qed.
Lemma completes_iff n m : rect n n m ->
  completes A dv iz n m = true <-> (forall k, (1 <= k < n)%N -> \det (mx_of k m) != 0).
Proof.
move=> Rm. rewrite /completes.
have HR := @ret_fold_ind _ _ (p_step A dv iz n m (p_cofs A dv iz n m)) (Out n m) (fun _ => exists2 i, (i.+1 < n)%N & \det (mx_of i.+1 m) = 0) n 0%N m.
have P1 : Out n m 0 m.
  exists (at2 A m). split; first exact: mat_of. split=> [k Hk|]; last by split.
    by congr (\det _); apply/matrixP=> a b; rewrite !mxE.
have {}HR := HR P1. move: HR. match goal with |- (?P -> _) -> _ => have P2 : P end; last move=> /(_ P2) {P2}.
  move=> i st [_ Hi] HO. have := @step_inv n m (p_cofs A dv iz n m) i st (introT ltP Hi) HO.
    case: (p_step _ _ _ _ _ _ _ _) => // _ [H1 H2]. by exists i.
case: (ret_fold _ _ _) => [st [f [_ [Hk [Ht Hz]]]]|_ [i Hi Hd]]; split=> //.
- move=> _ k /andP[H1 H2]. rewrite (@block_det n m n f) //; [|nlia|nlia].
  apply/prodf_neq0 => a _. apply: Hz; [|]; move: (ltn_ord a) => ?; nlia.
- move=> /(_ i.+1). rewrite Hd eqxx => H. by have := H Hi.
Qed.
End Field.
Lemma fact_mc n : fact n = n`!.
Proof. by elim: n => // n IH; rewrite factS -IH. Qed.
Section Claims.
Variable F : fieldType.
Let A := ring_arith F.
Let dv := fun x y : F => x / y.
Let iz := fun x : F => x == 0.
Lemma free_field : exact_field (counting A dv iz CostDet.free).
Proof. by split=> [|x y s _|x] //; [exact: (proj1 (free_exact A dv iz))|rewrite /= Nat.add_0_r]. Qed.
Lemma det_value (c : cfg) (d : ety nat F) w n m k v : (0 < n)%N -> (2 * n <= W c)%coq_nat -> rect n n m ->
  spends (det c d (counting A dv iz w) n m) v k -> v = \det (mx_of n m).
Proof.
move=> Hn HW Rm H.
have HW' : (n + n <= W c)%coq_nat by move: HW; clear; nlia.
have [k1 [S1 _]] := @det_costs _ A dv iz c d w n m (elimT ltP Hn) HW' Rm.
have [k2 [S2 _]] := @det_costs _ A dv iz c d CostDet.free n m (elimT ltP Hn) HW' Rm.
have [-> _] := spends_inj _ _ _ _ _ H S1.
have := S2 0%N. rewrite (@det_spec _ _ c d _ free_field n Hn HW m 0%N Rm). by case=> ->.
Qed.
Lemma rank_mxsub p q p' q' (f : 'I_p' -> 'I_p) (g : 'I_q' -> 'I_q) (M : 'M[F]_(p, q)) : (\rank (mxsub f g M) <= \rank M)%N.
Proof.
have R p0 q0 p1 (f0 : 'I_p1 -> 'I_p0) (N : 'M[F]_(p0, q0)) : (\rank (rowsub f0 N) <= \rank N)%N by rewrite rowsubE mxrankM_maxr.
have -> : mxsub f g M = rowsub f (rowsub g M^T)^T by apply/matrixP=> i j; rewrite !mxE.
apply: leq_trans (R _ _ _ _ _) _. rewrite mxrank_tr. apply: leq_trans (R _ _ _ _ _) _. by rewrite mxrank_tr.
Qed.
Lemma rank_block n k (m : list (list F)) : (k <= n)%N -> (\rank (mx_of k m) <= \rank (mx_of n m))%N.
Proof.
move=> Hk. have -> : mx_of k m = mxsub (widen_ord Hk) (widen_ord Hk) (mx_of n m) by apply/matrixP=> a b; rewrite !mxE.
exact: rank_mxsub.
Qed.
Lemma rank_sub n (m : list (list F)) i : (\rank (mx_of (Nat.sub n.+1 1) (p_sub A n.+1 i 0 m)) <= \rank (mx_of n.+1 m))%N.
Proof.
have -> : Nat.sub n.+1 1 = n by nlia.
have -> : mx_of n (p_sub A n.+1 i 0 m) = mxsub (fun a : 'I_n => inord (skip i a)) (fun b : 'I_n => inord (skip 0 b)) (mx_of n.+1 m).
  apply/matrixP=> a b. rewrite !mxE /p_sub at2_mat; [|by move: (ltn_ord a) => ?; nlia|by move: (ltn_ord b) => ?; nlia].
  rewrite !inordK //; rewrite /skip; move: (ltn_ord a) (ltn_ord b) => ? ?; case: (Nat.ltb _ _); nlia.
exact: rank_mxsub.
Qed.
End Claims.

(** If no leading principal minor of order below [n] vanishes, the determinant costs exactly this. *)
Theorem C72_regular :
  forall (F : fieldType) w (c : cfg) (d : ety nat F) n m,
  rect n n m -> (4 <= n)%coq_nat -> (2 * n <= W c)%coq_nat ->
  (forall k, (1 <= k < n)%N -> \det (mx_of k m) != 0) ->
  exists cost, 
  (2 * cost = n * (n - 1) * (2 * w_clone w + w_div w) + n * n * (n - 1) * (3 * w_clone w + w_mul w + w_sub w)
             + 2 * (n * n * w_clone w) + 2 * (n * (w_clone w + w_mul w)))%nat /\
  spends (det c d (counting (ring_arith F) (fun x y => x / y) (fun x => x == 0) w) n m) (\det (mx_of n m)) cost.
Proof.
move=> F w c d n m Rm Hn HW HM.
have [k [S1 [_ [_ HB]]]] := @det_costs _ (ring_arith F) (fun x y : F => x / y) (fun x : F => x == 0) c d w n m ltac:(nlia) ltac:(nlia) Rm.
have {}HB := HB Hn. rewrite (proj2 (@completes_iff F n m Rm) HM) in HB.
exists k. split; last by rewrite -(@det_value F c d w n m k _ ltac:(nlia) HW Rm S1).
have := @elim_cost_closed w n. move: HB. rewrite /muln /muln_rec /addn /addn_rec /subn /subn_rec. set e := elim_cost _ _. clearbody e. clear. move=> -> H. nia.
Qed.
Print Assumptions C72_regular.
(** A matrix of rank [r] needs at least [n! / max (3, r + 1)!] multiplications. *)
Theorem C72_rank_deficient :
  forall (F : fieldType) (c : cfg) (d : ety nat F) n m value cost,
  rect n n m -> (2 <= n)%coq_nat -> (2 * n <= W c)%coq_nat ->
  spends (det c d (counting (ring_arith F) (fun x y => x / y) (fun x => x == 0) multiplications) n m) value cost ->
  (n`! <= (maxn 3 (\rank (mx_of n m)).+1)`! * cost)%N.
Proof.
move=> F c d n m v k Rm Hn HW HS.
have := leqnn (\rank (mx_of n m)); set r := {2 3}(\rank (mx_of n m)); move=> Hr0.
have HQ : forall n m, rect n n m -> (maxn 3 r.+1 < n)%coq_nat -> (\rank (mx_of n m) <= r)%N ->
    completes (ring_arith F) (fun x y : F => x / y) (fun x : F => x == 0) n m = false /\
    forall i, (i < n)%coq_nat -> (\rank (mx_of (Nat.sub n 1) (p_sub (ring_arith F) n i 0 m)) <= r)%N.
  clearbody r; clear; move=> n m Rm /ltP. rewrite gtn_max => /andP[H3 Hr] HR. split.
    apply/negP => /(@completes_iff F n m Rm) /(_ r.+1). rewrite Hr => /(_ isT). rewrite -unitfE -unitmxE => /mxrank_unit E.
    have := leq_trans (@rank_block F n r.+1 m (ltnW Hr)) HR. by rewrite E ltnn.
  move=> i _. case: n H3 {Rm Hr} HR => // n _ HR. exact: leq_trans (rank_sub _ _ _) HR.
have HK : (3 <= maxn 3 r.+1)%coq_nat by apply/leP; rewrite leq_maxl.
have := @det_blowup _ (ring_arith F) (fun x y : F => x / y) (fun x : F => x == 0) c d multiplications
  (fun n m => (\rank (mx_of n m) <= r)%N) (maxn 3 r.+1) HK HQ n m v k Hn ltac:(nlia) Rm Hr0 HS.
rewrite !fact_mc /= Nat.mul_1_r => /leP. by [].
Qed.
Print Assumptions C72_rank_deficient.
(** No determinant needs more than [5 n!] multiplications. *)
Theorem C72_upper_bound :
  forall (F : fieldType) (c : cfg) (d : ety nat F) n m,
  rect n n m -> (1 <= n)%coq_nat -> (2 * n <= W c)%coq_nat ->
  exists cost, (cost <= 5 * n`!)%N /\
  spends (det c d (counting (ring_arith F) (fun x y => x / y) (fun x => x == 0) multiplications) n m) (\det (mx_of n m)) cost.
Proof.
move=> F c d n m Rm Hn HW.
have [k [S1 [_ [H3 _]]]] := @det_costs _ (ring_arith F) (fun x y : F => x / y) (fun x : F => x == 0) c d multiplications n m Hn ltac:(nlia) Rm.
have EV := @det_value F c d multiplications n m k _ (introT ltP Hn) HW Rm S1.
exists k. rewrite -EV. split=> //.
case: (leqP 3 n) => H.
  have := @det_upper_bound _ (ring_arith F) (fun x y : F => x / y) (fun x : F => x == 0) c d n m _ k (elimT leP H) ltac:(nlia) Rm S1.
  rewrite fact_mc. rewrite /muln /muln_rec. move=> ?; apply/leP; lia.
case: n H Hn HW Rm {H3} EV S1 => [|[|[|]]] // _ Hn _ Rm _ S1.
- by exfalso; clear -Hn; lia.
- have [_ <-] := spends_inj _ _ _ _ _ (sp_det1 (ring_arith F) (fun x y : F => x / y) (fun x : F => x == 0) c multiplications m Rm) S1. by [].
- have [_ <-] := spends_inj _ _ _ _ _ (sp_det2 (ring_arith F) (fun x y : F => x / y) (fun x : F => x == 0) c multiplications m Rm) S1. by [].
Qed.
Print Assumptions C72_upper_bound.
(** The 4x4 identity takes 28 multiplications; the 32x32 zero matrix at least 32!/6, and it is
    within reach of every machine width. *)
Example C72_ex : forall (F : fieldType) (c : cfg) (d : ety nat F),
  let o := counting (ring_arith F) (fun x y => x / y) (fun x => x == 0) multiplications in
  let zero := repeat (repeat (0 : F) 32) 32 in
  (exists v, spends (det c d o 4 (m_id (ring_arith F) 4)) v 28) /\
  (exists v k, spends (det c d o 32 zero) v k /\ (32`! <= 6 * k)%N).
Proof.
move=> F c d o zero. have HW := W_big c. split.
- have HM : forall k, (1 <= k < 4)%N -> \det (mx_of k (m_id (ring_arith F) 4)) != 0.
    move=> k /andP[H1 H2]. have -> : mx_of k (m_id (ring_arith F) 4) = 1%:M.
      apply/matrixP=> i j. rewrite !mxE /m_id at2_mat; [|by move: (ltn_ord i) => ?; nlia|by move: (ltn_ord j) => ?; nlia].
      by rewrite eqbE -val_eqE /=; case: (_ == _).
    by rewrite det1 oner_neq0.
  have [k [Hk HS]] := @C72_regular F multiplications c d 4 (m_id (ring_arith F) 4) (mat_rect _ _ _) (le_n 4) ltac:(nlia) HM.
  exists (\det (mx_of 4 (m_id (ring_arith F) 4))). have Hk' : (2 * k)%N = 56%N by rewrite Hk. have -> : 28%N = k by clear -Hk'; nlia. exact: HS.
- have RZ : rect 32 32 zero by split; [exact: repeat_length|apply/Forall_forall => x Hx; rewrite (repeat_spec _ _ _ Hx); exact: repeat_length].
  have [k [HS _]] := @det_costs _ (ring_arith F) (fun x y : F => x / y) (fun x : F => x == 0) c d multiplications 32 zero ltac:(clear; lia) ltac:(nlia) RZ.
  exists (p_det (ring_arith F) (fun x y : F => x / y) (fun x : F => x == 0) 32 zero), k. split=> //.
  have := @C72_rank_deficient F c d 32 zero _ k RZ ltac:(clear; lia) ltac:(nlia) HS.
  have -> : mx_of 32 zero = 0.
    apply/matrixP=> i j. rewrite !mxE /at2 /zero. move: (nat_of_ord i) (nat_of_ord j) => {i j}.
    clear. move=> i j. have E : forall p q (x : F), List.nth p (repeat x q) x = x by move=> p q x; elim: q p => [|q IH] [|p] //=.
    case: (Nat.lt_ge_cases i 32) => Hi.
    - rewrite (nth_indep _ _ (repeat (0:F) 32)); last by rewrite repeat_length. rewrite nth_repeat. exact: E.
    - rewrite (nth_overflow _ (n := i)); last by rewrite repeat_length. by case: j.
  by rewrite mxrank0.
Qed.
(** ** Inverse *)
(** For [n >= 4]: a found inverse costs exactly this, an early [None] at most this. *)
Theorem C73_inverse_cost :
  forall T (A : arith T) dv iz w (c : cfg) (d : ety nat T) n m,
  rect n n m -> (4 <= n)%coq_nat ->
  exists result cost, spends (inverse c d (counting A dv iz w) n m) result cost /\
  let full := (n * n * w_clone w + n * (w_clone w + w_div w) + n * n * (4 * w_clone w + 2 * w_mul w)
    + n * (n - 1) * w_clone w + n * n * (n - 1) * (6 * w_clone w + 2 * w_mul w + 2 * w_sub w))%nat in
  (cost <= full)%coq_nat /\ (result <> None -> cost = full).
Proof.
move=> T A dv iz w c d n m Rm Hn. have [k [S1 HB]] := @inv_costs _ A dv iz c d w n m Rm.
exists (p_inv_big A dv iz n m), k. split; first by case: n Hn {HB} Rm S1 => [|[|[|[|n]]]] Hn Rm S1; try (exfalso; clear -Hn; lia); exact S1.
set full := (X in let _ := X in _). move=> f0.
have EF : f0 = (n * (n * w_clone w) + n * (w_clone w + w_div w + n * (4 * w_clone w + 2 * w_mul w) + (n - 1) * (w_clone w + n * (6 * w_clone w + 2 * w_mul w + 2 * w_sub w))))%nat.
  by rewrite /f0 /full; symmetry; exact: inv_cost_expand.
rewrite EF. move: HB. change addn with Nat.add; change muln with Nat.mul; change subn with Nat.sub.
case: (p_inv_big A dv iz n m) => [x|] H; [rewrite H|]; split=> //.
Qed.
Print Assumptions C73_inverse_cost.
(** The inverse of the 4x4 identity costs 128 multiplications and 4 divisions; that of the zero
    matrix is refused without either. *)
Example C73_ex :
  let d := Ety (fun _ s => s) true : ety nat nat in
  let A := Arith 0%N 1%N Nat.add Nat.sub Nat.mul id in
  let o w := counting A Nat.div (Nat.eqb 0) w in
  let zero := repeat (repeat 0%N 4) 4 in
  inverse dbg d (o multiplications) 4 (m_id A 4) 0%N = (Ok (Some (m_id A 4)), 128%N) /\
  inverse dbg d (o divisions) 4 (m_id A 4) 0%N = (Ok (Some (m_id A 4)), 4%N) /\
  inverse dbg d (o multiplications) 4 zero 0%N = (Ok None, 0%N).
Proof. split; last split; vm_compute; reflexivity. Qed.
