(** * PropsNorm.v - theorems for C22: norm and normalisation over every real closed field
    (exact arithmetic). *)
From Coq Require Import List Arith Bool Lia.
From Verif Require Import Rust Iter Elem VectorM MatIterM MatrixM ArithM OpsM SpecCommon SpecAlg Harness.
From Verif Require Import VecProofs Sim Algebra PropsAlg SpecMx MxLink MxDet PropsDet.
Set Warnings "-notation-overridden,-ambiguous-paths".
From mathcomp Require Import all_ssreflect all_algebra.
Set Implicit Arguments.
Unset Strict Implicit.
Unset Printing Implicit Defensive.
Import GRing.Theory Num.Theory Order.POrderTheory.
Local Open Scope ring_scope.

(** ** Specification *)
(** An element type with exact real arithmetic; [sqrt] is only promised for non-negative
    arguments, division only for non-zero divisors. *)
Record exact_real (S : Type) (R : rcfType) (o : fops S R) : Prop := ExactReal {
  xr_field : exact_field (f_ops o);
  xr_powi2 : forall (x : R) s, f_powi2 o x s = (Ok (x * x), s);
  xr_sqrt : forall (x : R) s, 0 <= x -> exists y, f_sqrt o x s = (Ok y, s) /\ 0 <= y /\ y * y = x }.
(** Every real closed field is an instance (division by zero and roots of negative numbers panic). *)
Definition real_fops {S : Type} (R : rcfType) : fops S R :=
  Fops (field_ops R) (fun x : R => ret (x * x)) (fun x => if 0 <= x then ret (Num.sqrt x) else panic).
Example real_fops_exact (S : Type) (R : rcfType) : exact_real (real_fops (S := S) R).
Proof.
split=> //; first exact: field_ops_exact. move=> x s H /=. exists (Num.sqrt x). rewrite H sqrtr_ge0. split=> //. split=> //.
by rewrite -expr2 sqr_sqrtr.
Qed.

Section Facts.
Variables (S : Type) (R : rcfType) (c : cfg) (d : ety S R) (o : fops S R).
Hypothesis HR : exact_real o.
Let A := ring_arith R.
Let HF := xr_field HR.
Let HE := xf_ring HF.
Definition sq (n : nat) (v : list R) : R := sum A n (fun i => at1 A v i * at1 A v i).
Lemma sq_big n v : sq n v = \sum_(i < n) at1 A v i * at1 A v i.
Proof. exact: sum_big. Qed.
Lemma sq_ge0 n v : 0 <= sq n v.
Proof. rewrite sq_big. apply: sumr_ge0 => i _. by rewrite -expr2 sqr_ge0. Qed.
Lemma fold_left_seq (f : R -> R -> R) z (v : list R) :
  List.fold_left f v z = List.fold_left (fun acc k => f acc (at1 A v k)) (List.seq 0 (length v)) z.
Proof.
rewrite -{1}(vec_at1 A (length v) v) // /vec. elim: (List.seq _ _) z => [//|k l IH] z /=. by rewrite IH.
Qed.
Lemma norm_run n v s : length v = n -> exists x, vnorm o n v s = (Ok x, s) /\ 0 <= x /\ x * x = sq n v.
Proof.
move=> Lv. rewrite (vnorm_spec o n v s Lv) /bind.
rewrite (fold_in_order_pure _ (fun acc x => acc + x * x)); last first.
  move=> b x s0 _. by rewrite (ex_clone _ _ (ex_semi _ _ HE)) (xr_powi2 HR) (ex_add _ _ (ex_semi _ _ HE)).
have -> : List.fold_left (fun acc x : R => acc + x * x) v (o_zero (f_ops o)) = sq n v.
  by rewrite fold_left_seq Lv (ex_zero _ _ (ex_semi _ _ HE)).
exact: (xr_sqrt HR s (sq_ge0 n v)).
Qed.
Lemma sq_inj (x y : R) : 0 <= x -> 0 <= y -> x * x = y * y -> x = y.
Proof. move=> Hx Hy /eqP. rewrite -!expr2 eqr_expn2 //. by move/eqP. Qed.
Lemma cauchy n v w : (v_dot A n v w) * (v_dot A n v w) <= sq n v * sq n w.
Proof.
rewrite !sq_big /v_dot sum_big.
set B := \sum_(i < n) at1 A w i * at1 A w i. set D := \sum_(k < n) _. set Q := \sum_(i < n) at1 A v i * at1 A v i.
have HB : 0 <= B by apply: sumr_ge0 => i _; rewrite -expr2 sqr_ge0.
have E : \sum_(i < n) (B * at1 A v i - D * at1 A w i) ^+ 2 = B * (B * Q - D * D).
  rewrite (eq_bigr (fun i : 'I_n => B * B * (at1 A v i * at1 A v i) - (B * D * (at1 A v i * at1 A w i)) *+ 2 + D * D * (at1 A w i * at1 A w i))); last first.
    move=> i _. rewrite sqrrB !expr2. by rewrite !mulrA (mulrAC B _ B) (mulrAC D _ D) (mulrAC B _ D).
  rewrite big_split /= sumrB sumrMnl -!big_distrr /=. rewrite -/B -/D -/Q.
  rewrite mulrBr !mulrA mulr2n opprD addrA. by rewrite [D * D * B]mulrC mulrA subrK.
have H0 : 0 <= B * (B * Q - D * D) by rewrite -E; apply: sumr_ge0 => i _; rewrite sqr_ge0.
case: (eqVneq B 0) => HB0; last first.
  have HB1 : 0 < B by rewrite lt_neqAle eq_sym HB0. rewrite [Q * B]mulrC -subr_ge0. by move: H0; rewrite pmulr_rge0.
have W0 (i : 'I_n) : at1 A w i = 0.
  have : at1 A w i * at1 A w i = 0.
    by apply: (psumr_eq0P (P := predT) (F := fun i : 'I_n => at1 A w i * at1 A w i)) => // j _; rewrite -expr2 sqr_ge0.
  move/eqP. rewrite mulf_eq0 orbb. by move/eqP.
have -> : D = 0 by rewrite /D big1 // => i _; rewrite W0 /= mulr0.
by rewrite HB0 !mulr0.
Qed.
End Facts.

(** ** C22 *)
(** [norm()] is the non-negative square root of the sum of squares. *)
Theorem C22_norm :
  forall (S : Type) (R : rcfType) (o : fops S R), exact_real o ->
  forall n v (s : S), length v = n ->
  exists x, vnorm o n v s = (Ok x, s) /\ 0 <= x /\
            x * x = sum (ring_arith R) n (fun i => at1 (ring_arith R) v i * at1 (ring_arith R) v i).
Proof. move=> S R o HR n v s Lv. exact: norm_run. Qed.
Print Assumptions C22_norm.
Theorem C22_zero_iff :
  forall (S : Type) (R : rcfType) (o : fops S R), exact_real o ->
  forall n v (s : S), length v = n -> (vnorm o n v s = (Ok 0, s) <-> v = List.repeat 0 n).
Proof.
move=> S R o HR n v s Lv. have [x [-> [H0 E]]] := norm_run HR s Lv. rewrite sq_big in E.
have Ev : v = List.repeat 0 n <-> (forall i : 'I_n, at1 (ring_arith R) v i = 0).
  split=> [-> i|H]; first by rewrite /at1 List.nth_repeat.
  have Hr m lo : List.repeat (0 : R) m = List.map (fun=> 0) (List.seq lo m).
    by elim: m lo => [//|m IH] lo /=; rewrite (IH lo.+1).
  rewrite -(vec_at1 (ring_arith R) n v Lv) /vec (Hr n 0%N); apply: List.map_ext_in => k.
  move/List.in_seq => [_ Hk]. have Hk' : (k < n)%N by apply/ltP. exact: (H (Ordinal Hk')).
split.
- move=> [Hx]. apply/Ev => i. have : at1 (ring_arith R) v i * at1 (ring_arith R) v i = 0.
    apply: (psumr_eq0P (P := predT) (F := fun i : 'I_n => at1 (ring_arith R) v i * at1 (ring_arith R) v i)) => //.
      by move=> j _; rewrite -expr2 sqr_ge0.
    by rewrite -E Hx mulr0.
  move/eqP. rewrite mulf_eq0 orbb. by move/eqP.
- move/Ev=> H. congr (Ok _, _). move/eqP: E. rewrite big1; last by move=> i _; rewrite H mulr0.
  rewrite mulf_eq0 orbb. by move/eqP.
Qed.
Print Assumptions C22_zero_iff.
(** |v * k| = |k| |v|. *)
Theorem C22_scale :
  forall (S : Type) (R : rcfType) (c : cfg) (d : ety S R) (o : fops S R), exact_real o ->
  forall n v k (s : S), length v = n -> (n < W c)%N ->
  (w <- vscale c d d n (o_mul (f_ops o)) (o_clone (f_ops o)) v k ;; vnorm o n w) s
  = (x <- vnorm o n v ;; ret (`|k| * x)) s.
Proof.
move=> S R c d o HR n v k s Lv /ltP HW. have HE := ex_semi _ _ (xf_ring (xr_field HR)).
rewrite (bind_ok (scalev c d (f_ops o) _ HE n v k s Lv HW)).
have Lw : length (v_scale (ring_arith R) n v k) = n by rewrite vec_length.
have [x [Ex [Hx Sx]]] := norm_run HR s Lv. have [y [Ey [Hy Sy]]] := norm_run HR s Lw.
rewrite Ey (bind_ok Ex). congr (Ok _, _). apply: sq_inj => //; first by rewrite mulr_ge0.
rewrite Sy mulrACA Sx -normrM ger0_norm -?expr2 ?sqr_ge0 //. rewrite !sq_big mulr_sumr. apply: eq_bigr => i _.
rewrite /v_scale at1_vec; last by apply/ltP. by rewrite /= mulrACA mulrC -expr2.
Qed.
Print Assumptions C22_scale.
(** Cauchy-Schwarz: |a . b| <= |a| |b|. *)
Theorem C22_cauchy_schwarz :
  forall (S : Type) (R : rcfType) (o : fops S R), exact_real o ->
  forall n a b (s : S), length a = n -> length b = n ->
  exists p x y, vdot (f_ops o) n a b s = (Ok p, s) /\ vnorm o n a s = (Ok x, s) /\ vnorm o n b s = (Ok y, s) /\
    `|p| <= x * y.
Proof.
move=> S R o HR n a b s La Lb. have HE := ex_semi _ _ (xf_ring (xr_field HR)).
have [x [Ex [Hx Sx]]] := norm_run HR s La. have [y [Ey [Hy Sy]]] := norm_run HR s Lb.
exists (v_dot (ring_arith R) n a b), x, y. split; first exact: dotv. split=> //. split=> //.
rewrite -(ler_pexpn2r (n := 2)) ?nnegrE ?mulr_ge0 //. rewrite !expr2 mulrACA Sx Sy -normrM ger0_norm -?expr2 ?sqr_ge0 // expr2.
exact: cauchy.
Qed.
Print Assumptions C22_cauchy_schwarz.
(** The triangle inequality. *)
Theorem C22_triangle :
  forall (S : Type) (R : rcfType) (c : cfg) (d : ety S R) (o : fops S R), exact_real o ->
  forall n a b (s : S), length a = n -> length b = n -> (n < W c)%N ->
  exists z x y, (w <- vzip_vv c d d d n (o_add (f_ops o)) a b ;; vnorm o n w) s = (Ok z, s) /\
    vnorm o n a s = (Ok x, s) /\ vnorm o n b s = (Ok y, s) /\ z <= x + y.
Proof.
move=> S R c d o HR n a b s La Lb /ltP HW. have HE := ex_semi _ _ (xf_ring (xr_field HR)).
have [x [Ex [Hx Sx]]] := norm_run HR s La. have [y [Ey [Hy Sy]]] := norm_run HR s Lb.
have Lw : length (v_add (ring_arith R) n a b) = n by rewrite vec_length.
have [z [Ez [Hz Sz]]] := norm_run HR s Lw. exists z, x, y.
rewrite (bind_ok (PropsAlg.addv c d (f_ops o) _ HE n a b s La Lb HW)). split=> //. split=> //. split=> //.
have HD : v_dot (ring_arith R) n a b <= x * y.
  apply: (le_trans (ler_norm _)). rewrite -(ler_pexpn2r (n := 2)) ?nnegrE ?mulr_ge0 //.
  rewrite !expr2 mulrACA Sx Sy -normrM ger0_norm -?expr2 ?sqr_ge0 // expr2. exact: cauchy.
rewrite -(ler_pexpn2r (n := 2)) ?nnegrE ?addr_ge0 //. rewrite sqrrD !expr2 Sx Sy Sz.
have -> : sq n (v_add (ring_arith R) n a b) = sq n a + v_dot (ring_arith R) n a b *+ 2 + sq n b.
  rewrite !sq_big /v_dot sum_big -sumrMnl -!big_split /=. apply: eq_bigr => i _.
  rewrite /v_add at1_vec; last by apply/ltP. by rewrite /= -expr2 sqrrD !expr2.
by rewrite ler_add2r ler_add2l ler_muln2r HD orbT.
Qed.
Print Assumptions C22_triangle.
(** [normalized()] of a non-zero vector has norm 1 and is parallel to it: multiplying it by the
    norm gives the vector back. *)
Theorem C22_normalized :
  forall (S : Type) (R : rcfType) (c : cfg) (d : ety S R) (o : fops S R), exact_real o ->
  forall n v (s : S), length v = n -> (n < W c)%N -> v <> List.repeat 0 n ->
  exists x u, vnorm o n v s = (Ok x, s) /\ 0 < x /\
    vnormalized c d o n v s = (Ok u, s) /\ length u = n /\
    vnorm o n u s = (Ok 1, s) /\
    (forall i, (i < n)%N -> at1 (ring_arith R) v i = at1 (ring_arith R) u i * x).
Proof.
move=> S R c d o HR n v s Lv /ltP HW Hv. have HE := ex_semi _ _ (xf_ring (xr_field HR)).
have [x [Ex [Hx Sx]]] := norm_run HR s Lv.
have Hx0 : x != 0.
  apply/eqP=> E0. apply: Hv. apply/(C22_zero_iff HR s Lv). by rewrite Ex E0.
pose u := List.map (fun e : R => e / x) v. have Lu : length u = n by rewrite List.map_length.
have Eu : vnormalized c d o n v s = (Ok u, s).
  rewrite /vnormalized /bind vclone_spec // (in_order_pure _ (fun e => e)); last by move=> e s0 _; apply: (ex_clone _ _ HE).
  rewrite List.map_id Ex vscale_spec // (unwind_pure _ _ (fun e => e / x)) // => e s0 _.
  by rewrite /bind (ex_clone _ _ HE) (xf_div (xr_field HR)).
have Ui i : (i < n)%N -> at1 (ring_arith R) u i = at1 (ring_arith R) v i / x.
  move=> Hi. rewrite /at1 /u. rewrite (List.nth_indep _ _ (0 / x)); last by rewrite List.map_length Lv; apply/ltP.
  exact: List.map_nth.
exists x, u. split=> //. split; first by rewrite lt_neqAle eq_sym Hx0. split=> //. split=> //. split.
- have [y [-> [Hy Sy]]] := norm_run HR s Lu. congr (Ok _, _). apply: sq_inj => //; first exact: ler01. rewrite mulr1 Sy sq_big.
  rewrite (eq_bigr (fun i : 'I_n => (x * x)^-1 * (at1 (ring_arith R) v i * at1 (ring_arith R) v i))); last first.
    move=> i _. rewrite Ui // mulrACA -invfM mulrC. by [].
  by rewrite -mulr_sumr -sq_big -Sx mulVf // mulf_neq0.
- move=> i Hi. by rewrite Ui // divfK.
Qed.
Print Assumptions C22_normalized.
Example C22_ex (S : Type) (R : rcfType) (s : S) :
  vnorm (real_fops R) 2 [:: 3%:R; 4%:R] s = (Ok 5%:R, s).
Proof.
have [x [-> [H0 E]]] := norm_run (real_fops_exact S R) s (erefl : length [:: 3%:R : R; 4%:R] = 2%N).
congr (Ok _, _). apply: sq_inj => //; first exact: ler0n. rewrite E /sq /sum /= add0r -!natrM -natrD. by [].
Qed.
