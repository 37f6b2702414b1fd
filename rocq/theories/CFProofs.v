(** * CFProofs.v - C97: complex numbers with f32 or f64 parts (proofs only). *)
From Coq Require Import List Arith Bool Lia ZArith.
From Flocq Require Import Core BinarySingleNaN.
From Verif Require Import Rust Iter Elem VectorM MatIterM MatrixM ArithM OpsM CplxM SpecCommon SpecAlg FloatM SpecSign SpecCF.
From Verif Require Import Harness IterProofs OwnProofs VecProofs MatProofs Sim OpsSim OpsPure Algebra PropsAlg PropsCross PropsFloat SignProofs PropsSign PropsConj.
Import ListNotations.

Section CF.
Context {t : float_type}.
Local Notation FL := (float t).
Local Notation CF := (complex (float t)).
Local Notation AR := (float_arith t).
Local Notation CA := (c_arith (float_arith t)).
Definition cdiv (x y : CF) : CF :=
  let n := Bplus mode_NE (Bmult mode_NE (re y) (re y)) (Bmult mode_NE (im y) (im y)) in
  Complex (Bdiv mode_NE (Bplus mode_NE (Bmult mode_NE (re x) (re y)) (Bmult mode_NE (im x) (im y))) n)
          (Bdiv mode_NE (Bminus mode_NE (Bmult mode_NE (im x) (re y)) (Bmult mode_NE (re x) (im y))) n).
Definition ciz (x : CF) : bool := fl_is_zero (fprec t) (femax t) (re x) && fl_is_zero (fprec t) (femax t) (im x).
Definition cex {S} : exact (S:=S) (complex_ops (float_ops t)) CA := c_exact (float_ops t) AR fex.
Definition cse {S} : exact_semi (S:=S) (complex_ops (float_ops t)) CA := ex_semi _ _ cex.
Lemma cdv {S} : pure2 (S:=S) (o_div (complex_ops (float_ops t))) cdiv.
Proof. intros x y s. reflexivity. Qed.
Lemma ciz_eq {S} x : o_is_zero (complex_ops (S:=S) (float_ops t)) x = ciz x.
Proof. reflexivity. Qed.

(** [y] is [x] or its conjugate ([e]), negated or not ([b]). *)
Definition crel (e b : bool) (x y : CF) : Prop := frel b (re x) (re y) /\ frel (xorb b e) (im x) (im y).
Lemma sq_same b (x y : FL) : frel b x y -> Bmult mode_NE y y = Bmult mode_NE x x.
Proof.
  intros [->|(s1 & s2 & -> & H2)].
  - destruct b; [|reflexivity]. cbn [flip]. now rewrite mul_neg_l, mul_neg_r, opp_opp.
  - destruct b; cbn [flip] in H2; destruct x as [z| | |]; try discriminate H2; cbn; now rewrite !xorb_nilpotent.
Qed.
Lemma fdivn b (x y n : FL) : frel b x y -> frel b (Bdiv mode_NE x n) (Bdiv mode_NE y n).
Proof.
  unfold frel. intros H. apply (same_div_l _ _ n) in H. eapply same_trans; [exact H|].
  pose proof (flip_div b false x n) as K. cbn [flip] in K. rewrite K, xorb_false_r. apply same_refl.
Qed.
Lemma c_graded e : graded CA cdiv ciz (crel e).
Proof.
  pose proof (@float_graded t) as G. split.
  - intros b. split; apply (g_zero _ _ _ _ G).
  - split; [apply (g_one _ _ _ _ G)|apply (g_zero _ _ _ _ G)].
  - intros b x y x' y' [H1 H2] [H3 H4]. split; cbn [c_arith a_add re im]; now apply (g_add _ _ _ _ G).
  - intros b x y x' y' [H1 H2] [H3 H4]. split; cbn [c_arith a_sub re im]; now apply (g_sub _ _ _ _ G).
  - intros b b' x y x' y' [H1 H2] [H3 H4]. split; cbn [c_arith a_mul re im].
    + apply (g_sub _ _ _ _ G); eapply (fmul t); try eassumption; destruct b, b', e; reflexivity.
    + apply (g_add _ _ _ _ G); eapply (fmul t); try eassumption; destruct b, b', e; reflexivity.
  - intros b x y [H1 H2]. split; cbn [c_arith a_neg re im]; now apply (g_neg _ _ _ _ G).
  - intros b b' x y x' y' [H1 H2] [H3 H4] _. unfold cdiv. rewrite (sq_same _ _ _ H3), (sq_same _ _ _ H4). split; cbn [re im]; apply fdivn.
    + apply (g_add _ _ _ _ G); eapply (fmul t); try eassumption; destruct b, b', e; reflexivity.
    + apply (g_sub _ _ _ _ G); eapply (fmul t); try eassumption; destruct b, b', e; reflexivity.
  - intros b x y [H1 H2]. unfold ciz. now rewrite (g_iz _ _ _ _ G _ _ _ H1), (g_iz _ _ _ _ G _ _ _ H2).
Qed.
Lemma crel_conj x y : crel true false x y <-> csame y (conjugate_of x).
Proof. unfold crel, csame, conjugate_of, frel. cbn [xorb flip re im]. tauto. Qed.
Lemma rect_conj row col (m p : list (list CF)) : conjugates2 row col m p -> rect row col p.
Proof.
  intros (H1 & H2 & _). split; [exact H1|]. apply Forall_forall. intros r Hr. apply In_nth with (d := []) in Hr. destruct Hr as (i & Hi & <-).
  apply H2. now rewrite <- H1.
Qed.
Lemma conj_mat row col (m p : list (list CF)) : rect row col p ->
  (forall i j, i < row -> j < col -> crel true false (at2 CA m i j) (at2 CA p i j)) -> conjugates2 row col m p.
Proof.
  intros [R1 R2] H. split; [exact R1|]. split.
  - intros i Hi. rewrite Forall_forall in R2. apply R2. apply nth_In. now rewrite R1.
  - intros i j Hi Hj. apply crel_conj. now apply H.
Qed.
Lemma conj_get row col (m p : list (list CF)) i j : conjugates2 row col m p -> i < row -> j < col -> crel true false (at2 CA m i j) (at2 CA p i j).
Proof. intros (_ & _ & H) Hi Hj. apply crel_conj. exact (H i j Hi Hj). Qed.
Lemma conj_get1 n (v w : list CF) i : conjugates1 n v w -> i < n -> crel true false (at1 CA v i) (at1 CA w i).
Proof. intros (_ & H) Hi. apply crel_conj. exact (H i Hi). Qed.
Lemma conj_vec n (v w : list CF) : length w = n -> (forall i, i < n -> crel true false (at1 CA v i) (at1 CA w i)) -> conjugates1 n v w.
Proof. intros L H. split; [exact L|]. intros i Hi. apply crel_conj. now apply H. Qed.
Lemma csum n f g : (forall k, k < n -> crel true false (f k) (g k)) -> crel true false (sum CA n f) (sum CA n g).
Proof. apply (g_sum _ _ _ _ (c_graded true)). Qed.
Lemma cmul x y x' y' : crel true false x y -> crel true false x' y' -> crel true false (a_mul CA x x') (a_mul CA y y').
Proof. intros. now apply (g_mul' _ _ _ _ (c_graded true) false false false). Qed.
Lemma cj_in row col (m : list (list CF)) i j : rect row col m -> i < row -> j < col -> cat2 (m_cj AR m) i j = conjugate_of (cat2 m i j).
Proof.
  intros [R1 R2] Hi Hj. unfold cat2, m_cj. change (@nil CF) with (map (cj AR) []) at 1. rewrite map_nth.
  rewrite (nth_indep _ _ (cj AR czero)); [apply map_nth|]. rewrite map_length. rewrite Forall_forall in R2. rewrite (R2 (nth i m [])); [exact Hj|]. apply nth_In. now rewrite R1.
Qed.
Lemma cj_rect row col (m : list (list CF)) : rect row col m -> rect row col (m_cj AR m).
Proof.
  intros [H1 H2]. split; [unfold m_cj; now rewrite map_length|]. unfold m_cj. apply Forall_forall. intros r Hr.
  apply in_map_iff in Hr as (r' & <- & Hr). rewrite Forall_forall in H2. rewrite map_length. now apply H2.
Qed.
(** Every part of a sum, on its own. *)
Lemma sum_re n (f : nat -> CF) : re (sum CA n f) = sum AR n (fun k => re (f k)).
Proof. induction n as [|n IH]; [reflexivity|]. rewrite !sum_S. cbn [c_arith a_add re]. now rewrite IH. Qed.
Lemma sum_im n (f : nat -> CF) : im (sum CA n f) = sum AR n (fun k => im (f k)).
Proof. induction n as [|n IH]; [reflexivity|]. rewrite !sum_S. cbn [c_arith a_add im]. now rewrite IH. Qed.
End CF.
