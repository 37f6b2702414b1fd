(** * PropsInvLaws.v - property C84: what users do with an inverse. *)
From Coq Require Import List Arith Bool Lia.
From Verif Require Import Rust Iter Elem VectorM MatIterM MatrixM ArithM OpsM SpecCommon SpecAlg Harness.
From Verif Require Import Sim Algebra PropsAlg DetLoop SpecMx MxLink MxDet MxSpec PropsDet PropsInv.
Set Warnings "-notation-overridden,-ambiguous-paths".
From mathcomp Require Import all_ssreflect all_algebra.
Set Implicit Arguments.
Unset Strict Implicit.
Unset Printing Implicit Defensive.
Import GRing.Theory.
Local Open Scope ring_scope.

Section Laws.
Variables (S : Type) (F : fieldType) (c : cfg) (d : ety S F) (o : ops S F).
Hypothesis HF : exact_field o.
Local Notation A := (ring_arith F).

(** The matrices whose inverse is found. *)
Definition found n (a : list (list F)) : Prop :=
  if (n <= 3)%N then is_true (\det (mx_of n a) != 0) else forall k, (0 < k <= n)%N -> \det (mx_of k a) != 0.
Lemma found_det n a : (0 < n)%N -> found n a -> \det (mx_of n a) != 0.
Proof. rewrite /found. move=> Hn; case: leqP => // _ H. apply: (H n). by rewrite Hn leqnn. Qed.
Lemma inv_cases n a s : (0 < n)%N -> rect n n a -> exists r, inverse c d o n a s = (Ok r, s) /\
  match r with Some x => is_inverse n a x /\ found n a | None => ~ found n a end.
Proof.
move=> Hn Ra. rewrite /found. case: leqP => Hn3.
- have [|[x|] [-> H]] := inverse_small c d HF s _ Ra; first by rewrite Hn.
  + by exists (Some x); case: H.
  + exists None. split=> //. by rewrite H eqxx.
- case: n Hn Ra Hn3 => [|[|[|[|n]]]] // _ Ra _. have [[x|] [-> H]] := inverse_big c d HF s Ra.
  + exists (Some x). case: H => Hx Hk. split=> //. split=> // k /andP[_ Hkn]. exact: Hk.
  + exists None. split=> // G. case: H => k [Hk E]. by move: (G k Hk); rewrite E eqxx.
Qed.
Lemma inv_found n a s : (0 < n)%N -> rect n n a -> found n a -> exists x, inverse c d o n a s = (Ok (Some x), s) /\ is_inverse n a x.
Proof.
move=> Hn Ra H. have [[x|] [E K]] := inv_cases s Hn Ra; last by []. by exists x; case: K.
Qed.
Lemma inv_none n a s : (0 < n)%N -> rect n n a -> ~ found n a -> inverse c d o n a s = (Ok None, s).
Proof. move=> Hn Ra H. have [[x|] [E K]] := inv_cases s Hn Ra; last by []. by case: K. Qed.
Lemma inv_some n a x s : (0 < n)%N -> rect n n a -> inverse c d o n a s = (Ok (Some x), s) -> is_inverse n a x /\ found n a.
Proof. move=> Hn Ra E. have [r [E' K]] := inv_cases s Hn Ra. move: K. rewrite E' in E. by case: E => ->. Qed.
Lemma found_small n (a : list (list F)) : (0 < n <= 3)%N -> \det (mx_of n a) != 0 -> found n a.
Proof. rewrite /found. by case/andP=> _ ->. Qed.

Lemma inverse_mx n (a x : list (list F)) : is_inverse n a x -> mx_of n a *m mx_of n x = 1%:M /\ mx_of n x *m mx_of n a = 1%:M.
Proof. move=> [Rx [E1 E2]]. by rewrite -!mx_mul E1 E2 mx_id. Qed.
Lemma mx_inverse n (a x : list (list F)) : rect n n a -> rect n n x -> mx_of n a *m mx_of n x = 1%:M -> is_inverse n a x.
Proof.
move=> Ra Rx E. split=> //. split; apply: (@mx_of_inj _ n); try exact: mat_rect; rewrite mx_mul mx_id //.
exact: mulmx1C.
Qed.
Lemma inverse_unique n (a x y : list (list F)) : is_inverse n a x -> is_inverse n a y -> x = y.
Proof.
move=> Hx Hy. have [Ex _] := inverse_mx Hx. have [_ Ey] := inverse_mx Hy. case: Hx => Rx _; case: Hy => Ry _.
apply: (@mx_of_inj _ n) => //. by rewrite -[LHS]mul1mx -Ey -mulmxA Ex mulmx1.
Qed.
Lemma inverse_det n (a x : list (list F)) : is_inverse n a x -> \det (mx_of n x) = (\det (mx_of n a))^-1 /\ \det (mx_of n a) != 0.
Proof.
move=> /inverse_mx [E _]. move/(congr1 determinant): E. rewrite det_mulmx det1 => E.
have N : \det (mx_of n a) != 0 by apply/eqP=> Z; move: E; rewrite Z mul0r => /esym/eqP; rewrite oner_eq0.
split=> //. by rewrite -[RHS]mulr1 -E mulKf.
Qed.
Lemma found_tr n a : found n (m_tr A n n a) <-> found n a.
Proof.
have E k : (k <= n)%N -> \det (mx_of k (m_tr A n n a)) = \det (mx_of k a).
  move=> Hk. rewrite -[RHS]det_tr /m_tr mx_of_mat //. congr (\det _). by apply/matrixP=> i j; rewrite !mxE.
rewrite /found. case: leqP => _; first by rewrite E.
by split=> H k Hk; move: (H k Hk); rewrite E //; case/andP: Hk.
Qed.
Lemma found_scale n a x : x != 0 -> found n (m_scale A n n a x) <-> found n a.
Proof.
move=> Hx. have E k : (k <= n)%N -> (\det (mx_of k (m_scale A n n a x)) != 0) = (\det (mx_of k a) != 0).
  move=> Hk. have -> : mx_of k (m_scale A n n a x) = x *: mx_of k a.
    rewrite /m_scale mx_of_mat //. apply/matrixP=> i j; rewrite !mxE /=. by rewrite mulrC.
  by rewrite detZ mulf_eq0 expf_eq0 (negbTE Hx) andbF.
rewrite /found. case: leqP => _; first by rewrite E.
by split=> H k Hk; move: (H k Hk); rewrite E //; case/andP: Hk.
Qed.
End Laws.

(** Solving: [a * x == v] exactly when [x == a.inverse().unwrap() * v]. *)
Theorem C84_solves :
  forall (S : Type) (F : fieldType) (c : cfg) (d : ety S F) (o : ops S F), exact_field o ->
  forall n a b x v (s : S), (0 < n)%N -> (n < W c)%N -> rect n n a -> length x = n -> length v = n ->
  inverse c d o n a s = (Ok (Some b), s) ->
  (mmulv c d o n n a x s = (Ok v, s) <-> mmulv c d o n n b v s = (Ok x, s)).
Proof.
move=> S F c d o HF n a b x v s Hn /leP HW Ra Lx Lv E. have HE := ex_semi _ _ (xf_ring HF).
have [[Rb [E1 E2]] _] := inv_some HF Hn Ra E.
rewrite !(mulmv c d o _ HE) //. have SR : semiring (ring_arith F).
  split=> /= *; by rewrite ?addrA ?add0r ?mulrA ?mul1r ?mulr1 ?mul0r ?mulr0 ?mulrDl ?mulrDr //; rewrite addrC.
split; case=> <-; congr (Ok _, _).
- by rewrite -(m_mulv_assoc _ SR) E2 m_mulv_id.
- by rewrite -(m_mulv_assoc _ SR) E1 m_mulv_id.
Qed.
Print Assumptions C84_solves.

(** The inverse of the inverse is the original; above size 3 it may not be found. *)
Theorem C84_inverse_of_inverse :
  forall (S : Type) (F : fieldType) (c : cfg) (d : ety S F) (o : ops S F), exact_field o ->
  forall n a b (s : S), (0 < n)%N -> rect n n a ->
  inverse c d o n a s = (Ok (Some b), s) ->
  inverse c d o n b s = (Ok (Some a), s) \/ (4 <= n)%N /\ inverse c d o n b s = (Ok None, s).
Proof.
move=> S F c d o HF n a b s Hn Ra E. have [I G] := inv_some HF Hn Ra E. have Rb : rect n n b by case: I.
have [[x|] [-> K]] := inv_cases c d HF s Hn Rb.
- left. congr (Ok (Some _), _). case: K => Kx _. apply: inverse_unique Kx _.
  apply: mx_inverse => //. by case: (inverse_mx I).
- right. split=> //. rewrite ltnNge; apply/negP=> Hn3. apply: K. apply: found_small; first by rewrite Hn.
  have [-> N] := inverse_det I. by rewrite invr_eq0.
Qed.
Print Assumptions C84_inverse_of_inverse.

(** [(a * b)^-1 = b^-1 * a^-1]. *)
Theorem C84_product :
  forall (S : Type) (F : fieldType) (c : cfg) (d : ety S F) (o : ops S F), exact_field o ->
  forall n a b x y (s : S), (0 < n)%N -> (n < W c)%N -> rect n n a -> rect n n b ->
  inverse c d o n a s = (Ok (Some x), s) -> inverse c d o n b s = (Ok (Some y), s) ->
  (p <- mmul_vv c d o n n n a b ;; inverse c d o n p) s = (q <- mmul_vv c d o n n n y x ;; ret (Some q)) s \/
  (4 <= n)%N /\ (p <- mmul_vv c d o n n n a b ;; inverse c d o n p) s = (Ok None, s).
Proof.
move=> S F c d o HF n a b x y s Hn /leP HW Ra Rb Ex Ey. have HE := ex_semi _ _ (xf_ring HF).
have [Ix _] := inv_some HF Hn Ra Ex. have [Iy _] := inv_some HF Hn Rb Ey.
have Rx : rect n n x by case: Ix. have Ry : rect n n y by case: Iy.
rewrite /bind (mulm c d o _ HE n n n a b s Ra Rb HW HW HW) (mulm c d o _ HE n n n y x s Ry Rx HW HW HW).
set p := m_mul _ _ _ _ a b. set q := m_mul _ _ _ _ y x.
have Rp : rect n n p by exact: mat_rect. have Rq : rect n n q by exact: mat_rect.
have Iq : is_inverse n p q.
  apply: mx_inverse => //. rewrite !mx_mul. have [E1 _] := inverse_mx Ix. have [E2 _] := inverse_mx Iy.
  by rewrite mulmxA -(mulmxA (mx_of n a)) E2 mulmx1.
have [[z|] [-> K]] := inv_cases c d HF s Hn Rp.
- left. case: K => Kz _. by rewrite (inverse_unique Kz Iq).
- right. split=> //. rewrite ltnNge; apply/negP=> Hn3. apply: K. apply: found_small; first by rewrite Hn.
  by case: (inverse_det Iq).
Qed.
Print Assumptions C84_product.

(** Inverting commutes with transposing, at every size, also when there is no answer. *)
Theorem C84_transposed :
  forall (S : Type) (F : fieldType) (c : cfg) (d : ety S F) (o : ops S F), exact_field o ->
  forall n a (s : S), (0 < n)%N -> (n < W c)%N -> rect n n a ->
  (t <- mtransposed c d (o_clone o) n n a ;; inverse c d o n t) s
  = (r <- inverse c d o n a ;;
     match r with
     | Some x => t <- mtransposed c d (o_clone o) n n x ;; ret (Some t)
     | None => ret None
     end) s.
Proof.
move=> S F c d o HF n a s Hn /leP HW Ra. have HE := ex_semi _ _ (xf_ring HF). have HC := ex_clone _ _ HE.
rewrite (bind_ok (trm c d (ring_arith F) _ n n a s HC Ra HW)).
have Rt : rect n n (m_tr (ring_arith F) n n a) by exact: mat_rect.
have [[x|] [E K]] := inv_cases c d HF s Hn Ra; rewrite (bind_ok E).
- case: K => Ix G. have Rx : rect n n x by case: Ix.
  rewrite (bind_ok (trm c d (ring_arith F) _ n n x s HC Rx HW)).
  have [z [-> Iz]] := inv_found c d HF s Hn Rt ((found_tr n a).2 G).
  congr (Ok (Some _), _). apply: inverse_unique Iz _. apply: mx_inverse => //; first exact: mat_rect.
  have [_ E2] := inverse_mx Ix. by rewrite !mx_tr -trmx_mul E2 trmx1.
- apply: inv_none => //. by move/(found_tr n a).
Qed.
Print Assumptions C84_transposed.

(** Inverting [a * k] is inverting [a] and multiplying by [1 / k]. *)
Theorem C84_scaled :
  forall (S : Type) (F : fieldType) (c : cfg) (d : ety S F) (o : ops S F), exact_field o ->
  forall n a k (s : S), (0 < n)%N -> (n < W c)%N -> rect n n a -> k != 0 ->
  (p <- mscale c d n n (o_mul o) (o_clone o) a k ;; inverse c d o n p) s
  = (r <- inverse c d o n a ;;
     match r with
     | Some x => y <- mscale c d n n (o_mul o) (o_clone o) x k^-1 ;; ret (Some y)
     | None => ret None
     end) s.
Proof.
move=> S F c d o HF n a k s Hn /leP HW Ra Hk. have HE := ex_semi _ _ (xf_ring HF).
rewrite (bind_ok (scalem c d o _ HE n n a k s Ra HW HW)).
have Rt : rect n n (m_scale (ring_arith F) n n a k) by exact: mat_rect.
have [[x|] [E K]] := inv_cases c d HF s Hn Ra; rewrite (bind_ok E).
- case: K => Ix G. have Rx : rect n n x by case: Ix.
  rewrite (bind_ok (scalem c d o _ HE n n x k^-1 s Rx HW HW)).
  have [z [-> Iz]] := inv_found c d HF s Hn Rt ((found_scale n a Hk).2 G).
  congr (Ok (Some _), _). apply: inverse_unique Iz _. apply: mx_inverse => //; first exact: mat_rect.
  have [E1 _] := inverse_mx Ix. by rewrite !mx_scale -scalemxAr -scalemxAl scalerA mulVf // scale1r.
- apply: inv_none => //. by move/(found_scale n a Hk).
Qed.
Print Assumptions C84_scaled.

(** [det(a^-1) = 1 / det(a)]. *)
Theorem C84_determinant :
  forall (S : Type) (F : fieldType) (c : cfg) (d : ety S F) (o : ops S F), exact_field o ->
  forall n a x (s : S), (0 < n)%N -> (2 * n <= W c)%N -> rect n n a ->
  inverse c d o n a s = (Ok (Some x), s) ->
  exists e, e != 0 /\ det c d o n a s = (Ok e, s) /\ det c d o n x s = (Ok e^-1, s).
Proof.
move=> S F c d o HF n a x s Hn HW Ra E. have [I _] := inv_some HF Hn Ra E. have [D N] := inverse_det I.
have Rx : rect n n x by case: I. exists (\det (mx_of n a)). by rewrite !C43_determinant // D.
Qed.
Print Assumptions C84_determinant.

(** The identity is its own inverse, at every size. *)
Theorem C84_identity :
  forall (S : Type) (F : fieldType) (c : cfg) (d : ety S F) (o : ops S F), exact_field o ->
  forall n (s : S), (0 < n)%N ->
  (i <- midentity c d o n ;; inverse c d o n i) s = (i <- midentity c d o n ;; ret (Some i)) s.
Proof.
move=> S F c d o HF n s Hn. have HE := ex_semi _ _ (xf_ring HF).
rewrite !(bind_ok (idm c d o _ HE n s)). have R : rect n n (m_id (ring_arith F) n) by exact: mat_rect.
have D k : (k <= n)%N -> \det (mx_of k (m_id (ring_arith F) n)) != 0.
  move=> Hk. have -> : mx_of k (m_id (ring_arith F) n) = 1%:M; last by rewrite det1 oner_eq0.
  rewrite -mx_id /m_id !mx_of_mat //.
have G : found n (m_id (ring_arith F) n).
  rewrite /found. case: leqP => _; first exact: D. by move=> k /andP[_ /D].
have [z [-> Iz]] := inv_found c d HF s Hn R G.
congr (Ok (Some _), _). apply: inverse_unique Iz _. apply: mx_inverse => //. by rewrite mx_id mulmx1.
Qed.
Print Assumptions C84_identity.

(** Above size 3 the answers that "may not be found" do occur: [m84] has an inverse that
    [inverse()] finds, but it does not find the inverse of that inverse; [m84a] and [m84b] have
    inverses that it finds, but it does not find the inverse of their product. *)
Definition m84 : list (list rat) :=
  [:: [:: 1; 0; 0; 0]; [:: 0; 1; 0; 0]; [:: 0; 0; 1; 1]; [:: 0; 0; 1; 0]].
Definition m84i : list (list rat) :=
  [:: [:: 1; 0; 0; 0]; [:: 0; 1; 0; 0]; [:: 0; 0; 0; 1]; [:: 0; 0; 1; -1]].
Definition m84a : list (list rat) :=
  [:: [:: 1; 1; 0; 0]; [:: 0; 1; 0; 0]; [:: 0; 0; 1; 0]; [:: 0; 0; 0; 1]].
Definition m84b : list (list rat) :=
  [:: [:: 1; 0; 0; 0]; [:: -1; 1; 0; 0]; [:: 0; 0; 1; 0]; [:: 0; 0; 0; 1]].
Definition m84ab : list (list rat) :=
  [:: [:: 0; 1; 0; 0]; [:: -1; 1; 0; 0]; [:: 0; 0; 1; 0]; [:: 0; 0; 0; 1]].
Ltac minors := move=> [|[|[|[|[|?]]]]] // _; rewrite -m_det_mx; vm_compute.
Example C84_ex (S : Type) (c : cfg) (d : ety S rat) (s : S) :
  let o := field_ops rat_fieldType in
  inverse c d o 4 m84 s = (Ok (Some m84i), s) /\ inverse c d o 4 m84i s = (Ok None, s) /\
  (exists x, inverse c d o 4 m84a s = (Ok (Some x), s)) /\ (exists x, inverse c d o 4 m84b s = (Ok (Some x), s)) /\
  (p <- mmul_vv c d o 4 4 4 m84a m84b ;; inverse c d o 4 p) s = (Ok None, s).
Proof.
move=> o. have HF := field_ops_exact S rat_fieldType.
have R : forall m, m \in [:: m84; m84i; m84a; m84b; m84ab] -> rect 4 4 m.
  move=> m. rewrite !inE. do !case/orP; move/eqP=> ->; split=> //; by do !constructor.
have G : forall m, m \in [:: m84; m84a; m84b] -> found 4 m.
  move=> m. rewrite !inE /found. do !case/orP; move/eqP=> -> /=; by minors.
have N : forall m k, m \in [:: m84i; m84ab] -> (0 < k <= 4)%N -> \det (mx_of k m) = 0 -> inverse c d o 4 m s = (Ok None, s).
  move=> m k Hm Hk E. apply: inv_none => //; first by apply: R; move: Hm; rewrite !inE => /orP[] ->; rewrite ?orbT.
  rewrite /found /= => /(_ k Hk). by rewrite E eqxx.
split; [|split; [|split; [|split]]].
- have [x [-> I]] := inv_found c d HF s (isT : (0 < 4)%N) (R m84 isT) (G m84 isT).
  congr (Ok (Some _), _). apply: inverse_unique I _. apply: mx_inverse; try exact: R.
  rewrite -mx_mul -mx_id. by have -> : m_mul (ring_arith rat_fieldType) 4 4 4 m84 m84i = m_id (ring_arith rat_fieldType) 4 by vm_compute.
- apply: (N _ 3%N) => //. rewrite -m_det_mx. by vm_compute.
- have [x [E _]] := inv_found c d HF s (isT : (0 < 4)%N) (R m84a isT) (G m84a isT). by exists x.
- have [x [E _]] := inv_found c d HF s (isT : (0 < 4)%N) (R m84b isT) (G m84b isT). by exists x.
- have HW : (4 < W c)%coq_nat by have := wide c; lia.
  rewrite /bind (mulm c d o _ (ex_semi _ _ (xf_ring HF)) 4 4 4 m84a m84b s (R m84a isT) (R m84b isT) HW HW HW).
  have -> : m_mul (ring_arith rat_fieldType) 4 4 4 m84a m84b = m84ab by vm_compute.
  apply: (N _ 1%N) => //. rewrite -m_det_mx. by vm_compute.
Qed.
