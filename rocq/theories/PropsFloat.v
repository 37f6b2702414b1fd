(** * PropsFloat.v - C68 (determinant, cofactor and inverse are total and deterministic) and the
    refutation of C66. *)
From Coq Require Import List Arith Bool Lia ZArith Reals Lra.
From Flocq Require Import Core IEEE754.BinarySingleNaN.
From Verif Require Import Rust Iter Elem VectorM MatIterM MatrixM ArithM OpsM SpecCommon SpecAlg.
From Verif Require Import Harness AccProofs Sim DetLoop OpsPure FloatM SpecReal.
Import ListNotations.

(** ** C68 *)
Theorem C68_total :
  forall T (A : arith T) (dv : T -> T -> T) S (c : cfg) (d : ety S T) (o : ops S T),
  exact o A -> pure2 (o_div o) dv ->
  forall n m (s : S), 1 <= n <= 32 -> rect n n m ->
  (exists x, det c d o n m s = (Ok x, s)) /\
  (exists r, inverse c d o n m s = (Ok r, s) /\ forall x, r = Some x -> rect n n x) /\
  (forall i j, 2 <= n -> i < n -> j < n -> exists x, cofactor c d o n m (i, j) s = (Ok x, s)).
Proof.
  intros T A dv S c d o HE HD n m s Hn R. pose proof (W_big c) as HW. repeat split.
  - eexists. apply (det_p A dv (o_is_zero o) c d o HE HD); auto; lia.
  - eexists. split; [apply (inverse_p A dv (o_is_zero o) c d o HE HD); auto; lia|]. intros x Hx.
    destruct n as [|[|[|[|n]]]]; [lia| | | |]; cbn [p_inverse] in Hx.
    + cbv zeta in Hx. destruct (o_is_zero o _); [discriminate|]. injection Hx as <-. split; [reflexivity|repeat constructor].
    + cbv zeta in Hx. destruct (o_is_zero o _); [discriminate|]. injection Hx as <-. split; [reflexivity|repeat constructor].
    + cbv zeta in Hx. destruct (o_is_zero o _); [discriminate|]. injection Hx as <-. split; [reflexivity|repeat constructor].
    + apply p_inv_rect in Hx; [exact Hx|exact R].
  - intros i j H2 Hi Hj. eexists. apply (cofactor_p A dv (o_is_zero o) c d o HE HD); auto; lia.
Qed.
Print Assumptions C68_total.
(** The outcome does not depend on the build profile, the word size, the world or the drop
    glue: only on the values the operators compute. *)
Theorem C68_deterministic :
  forall T (A : arith T) (dv : T -> T -> T) S S' (c c' : cfg) (d : ety S T) (d' : ety S' T) (o : ops S T) (o' : ops S' T),
  exact o A -> pure2 (o_div o) dv -> exact o' A -> pure2 (o_div o') dv -> (forall x, o_is_zero o x = o_is_zero o' x) ->
  forall n m (s : S) (s' : S'), 1 <= n <= 32 -> rect n n m ->
  fst (det c d o n m s) = fst (det c' d' o' n m s') /\
  fst (inverse c d o n m s) = fst (inverse c' d' o' n m s') /\
  (forall i j, 2 <= n -> i < n -> j < n -> fst (cofactor c d o n m (i, j) s) = fst (cofactor c' d' o' n m (i, j) s')).
Proof.
  intros T A dv S S' c c' d d' o o' HE HD HE' HD' HZ n m s s' Hn R.
  pose proof (W_big c) as HW. pose proof (W_big c') as HW'.
  assert (HZ' : forall x, o_is_zero o' x = o_is_zero o x) by (intros; now rewrite HZ).
  repeat split.
  - rewrite (det_p A dv (o_is_zero o) c d o HE HD), (det_p A dv (o_is_zero o) c' d' o' HE' HD' HZ'); auto; lia.
  - rewrite (inverse_p A dv (o_is_zero o) c d o HE HD), (inverse_p A dv (o_is_zero o) c' d' o' HE' HD' HZ'); auto; lia.
  - intros i j H2 Hi Hj.
    rewrite (cofactor_p A dv (o_is_zero o) c d o HE HD), (cofactor_p A dv (o_is_zero o) c' d' o' HE' HD' HZ'); auto; lia.
Qed.
Print Assumptions C68_deterministic.
(** IEEE floats qualify. *)
Lemma fl_exact {S} prec emax Hp He : exact (S:=S) (fl_ops prec emax Hp He) (fl_arith prec emax Hp He) /\ pure2 (S:=S) (o_div (fl_ops prec emax Hp He)) (Bdiv mode_NE).
Proof. split; [split; [split|..]|]; try reflexivity; repeat intro; reflexivity. Qed.
Lemma f64_exact {S} : exact (S:=S) f64_ops f64_arith /\ pure2 (S:=S) (o_div f64_ops) (Bdiv mode_NE).
Proof. split; [split; [split|..]|]; try reflexivity; repeat intro; reflexivity. Qed.
(** A 4 x 4 matrix of NaNs. *)
Example C68_ex : exists r, inverse dbg (log_ety (T:=f64)) f64_ops 4 (repeat (repeat B754_nan 4) 4) [] = (Ok r, []).
Proof.
  destruct (C68_total f64 f64_arith (Bdiv mode_NE) _ dbg log_ety f64_ops (proj1 f64_exact) (proj2 f64_exact) 4 (repeat (repeat B754_nan 4) 4) [])
    as (_ & (r & H & _) & _); [lia|split; [reflexivity|repeat constructor]|]. exists r. exact H.
Qed.

(** ** C66 *)
Local Open Scope R_scope.
Definition e60 : f64 := @B754_finite 53 1024 false (2 ^ 52) (-112) eq_refl.   (* 2^-60 *)
Definition f0 : f64 := fl_zero 53 1024.
Definition f1 : f64 := @B754_finite 53 1024 false (2 ^ 52) (-52) eq_refl.     (* 1 *)
Definition m66 : list (list f64) := [[e60; f1; f0; f0]; [f1; f1; f0; f0]; [f0; f0; f1; f0]; [f0; f0; f0; f1]].
Definition y66 : list (list f64) :=
  match p_inverse f64_arith (Bdiv mode_NE) (fl_is_zero 53 1024) 4 m66 with Some y => y | None => [] end.
Definition p66 : list (list f64) := m_mul f64_arith 4 4 4 m66 y66.
Definition shape (x : f64) := SpecFloat.SFeqb (B2SF x) (B2SF f1).
Lemma y66_some : p_inv_big f64_arith (Bdiv mode_NE) (fl_is_zero 53 1024) 4 m66 = Some y66.
Proof.
  unfold y66. change (p_inverse f64_arith (Bdiv mode_NE) (fl_is_zero 53 1024) 4 m66)
    with (p_inv_big f64_arith (Bdiv mode_NE) (fl_is_zero 53 1024) 4 m66).
  assert (H : match p_inv_big f64_arith (Bdiv mode_NE) (fl_is_zero 53 1024) 4 m66 with Some _ => true | None => false end = true)
    by (vm_compute; reflexivity). destruct (p_inv_big _ _ _ 4 m66); [reflexivity|discriminate].
Qed.
Lemma p66_10 : at2 f64_arith p66 1 0 = f1.
Proof. apply B2SF_inj. vm_compute. reflexivity. Qed.
Lemma R66 : rect 4 4 m66.
Proof. split; [reflexivity|repeat constructor]. Qed.
Lemma y66_rect : rect 4 4 y66.
Proof. exact (p_inv_rect f64_arith (Bdiv mode_NE) (fl_is_zero 53 1024) 4 m66 y66 R66 y66_some). Qed.
Lemma inv66 S (c : cfg) (d : ety S f64) (s : S) : inverse c d f64_ops 4 m66 s = (Ok (Some y66), s).
Proof.
  rewrite <- y66_some. change (inverse c d f64_ops 4 m66 s) with (inv_big c d f64_ops 4 m66 s).
  apply (inv_big_p f64_arith (Bdiv mode_NE) (fl_is_zero 53 1024) c d f64_ops (proj1 f64_exact) (proj2 f64_exact) (fun _ => eq_refl) 4 m66 s R66).
Qed.
Lemma mul66 S (c : cfg) (d : ety S f64) (s : S) : mmul_rr c d f64_ops 4 4 4 m66 y66 s = (Ok p66, s).
Proof.
  unfold p66. generalize y66_rect. generalize y66. intros y Ry. pose proof (W_big c) as HW.
  exact (sim_eqm _ _ (sim_mmul_rr false eq c d f64_ops f64_arith (exact_sim_semi _ _ (ex_semi _ _ (proj1 f64_exact))) 4 4 4 m66 y m66 y
      (Forall2_eq2 _) (Forall2_eq2 _) R66 Ry ltac:(lia) ltac:(lia) ltac:(lia)) s).
Qed.
Definition t60 : R := bpow radix2 (-60).
Lemma t60_bounds : 0 < t60 <= / 4.
Proof.
  unfold t60. split; [apply bpow_gt_0|]. replace (/ 4) with (bpow radix2 (-2)) by (cbn; lra). apply bpow_le. discriminate.
Qed.
Lemma e60_val : B2R e60 = t60.
Proof.
  unfold e60, t60, B2R, F2R. cbn [cond_Zopp Fnum Fexp]. change (IZR (Z.pos (2 ^ 52))) with (IZR (2 ^ 52)).
  change (2 ^ 52)%Z with (radix_val radix2 ^ 52)%Z. rewrite (IZR_Zpower radix2 52) by discriminate. rewrite <- bpow_plus. reflexivity.
Qed.
Lemma f1_val : B2R f1 = 1.
Proof.
  unfold f1, B2R, F2R. cbn [cond_Zopp Fnum Fexp]. change (IZR (Z.pos (2 ^ 52))) with (IZR (2 ^ 52)).
  change (2 ^ 52)%Z with (radix_val radix2 ^ 52)%Z. rewrite (IZR_Zpower radix2 52) by discriminate. rewrite <- bpow_plus. reflexivity.
Qed.
Lemma f0_val : B2R f0 = 0.
Proof. reflexivity. Qed.
Definition r66 (i j : nat) : R :=
  match i, j with
  | 0%nat, 0%nat => t60 | 0%nat, 1%nat => 1 | 1%nat, 0%nat => 1 | 1%nat, 1%nat => 1
  | 2%nat, 2%nat => 1 | 3%nat, 3%nat => 1
  | _, _ => 0
  end.
Lemma m66_val i j : rat2 m66 i j = r66 i j.
Proof.
  unfold rat2. do 4 (destruct i as [|i]; [do 4 (destruct j as [|j]; [first [exact e60_val|exact f1_val|reflexivity]|]); destruct j; reflexivity|]).
  destruct i, j; reflexivity.
Qed.
(** The exact inverse. *)
Definition x66 (i j : nat) : R :=
  match i, j with
  | 0%nat, 0%nat => / (t60 - 1) | 0%nat, 1%nat => - / (t60 - 1)
  | 1%nat, 0%nat => - / (t60 - 1) | 1%nat, 1%nat => t60 * / (t60 - 1)
  | 2%nat, 2%nat => 1 | 3%nat, 3%nat => 1
  | _, _ => 0
  end.
Ltac real_unf := cbv [rdet rperm rminor over rsum fold_left seq Nat.even Nat.ltb Nat.leb Nat.sub].
Ltac real_unf_in H := cbv [rdet rperm rminor over rsum fold_left seq Nat.even Nat.ltb Nat.leb Nat.sub] in H.
Lemma cond66 : conditioned 4 3 (rat2 m66).
Proof.
  pose proof t60_bounds as Ht.
  assert (ED : rdet 4 (rat2 m66) = t60 - 1).
  { real_unf. rewrite !m66_val. cbv [r66]. ring. }
  split; [rewrite ED; lra|]. intros i k Hi Hk. rewrite ED. rewrite (Rabs_left (t60 - 1)) by lra. real_unf.
  assert (Et : Rabs t60 = t60) by (apply Rabs_pos_eq; lra).
  do 4 (destruct i as [|i]; [do 4 (destruct k as [|k]; [rewrite !m66_val; cbv [r66]; rewrite ?Et, ?Rabs_R0, ?Rabs_R1; lra|]); lia|]). lia.
Qed.
(** All entries of the matrix are in [0,1] and all entries of its exact inverse are at most 2
    in absolute value, and the permanental condition number is at most 3, so it is very well
    conditioned; but the floating-point product
    [m * m.inverse().unwrap()] has a 1 where the identity has a 0.  In every build. *)
Theorem C66_refuted :
  rect 4 4 m66 /\ (forall i j, 0 <= rat2 m66 i j <= 1) /\
  (exists X, real_inverse 4 (rat2 m66) X /\ forall i j, Rabs (X i j) <= 2) /\ conditioned 4 3 (rat2 m66) /\
  forall S (c : cfg) (d : ety S f64) (s : S),
  exists y p, inverse c d f64_ops 4 m66 s = (Ok (Some y), s) /\ mmul_rr c d f64_ops 4 4 4 m66 y s = (Ok p, s) /\
              rat2 p 1 0 = 1.
Proof.
  pose proof t60_bounds as Ht.
  split; [exact R66|]. split.
  { intros i j. rewrite m66_val. unfold r66. do 4 (destruct i as [|i]; [do 4 (destruct j as [|j]; [lra|]); lra|]). lra. }
  split.
  { exists x66. assert (Hd : t60 - 1 <> 0) by lra.
    assert (Hi : -2 <= / (t60 - 1) <= 0).
    { assert (H0 : / (t60 - 1) < 0) by (apply Rinv_lt_0_compat; lra).
      assert (H1 : / (t60 - 1) * (t60 - 1) = 1) by (apply Rinv_l; exact Hd). split; [nra|lra]. }
    split.
    - intros i j H1 H2. unfold rsum. cbn [seq fold_left]. rewrite !m66_val.
      do 4 (destruct i as [|i]; [do 4 (destruct j as [|j]; [cbv [r66 x66 Nat.eqb]; split; field; exact Hd|]); lia|]). lia.
    - intros i j. 
      assert (Ht2 : -2 <= t60 * / (t60 - 1) <= 0) by (split; nra).
      do 4 (destruct i as [|i]; [do 4 (destruct j as [|j]; [cbn [x66]; apply Rabs_le; lra|]); destruct j; cbn [x66]; apply Rabs_le; lra|]).
      destruct i; destruct j; cbn [x66]; apply Rabs_le; lra. }
  split; [exact cond66|]. intros S c d s. exists y66, p66. split; [apply inv66|]. split; [apply mul66|].
  transitivity (B2R (at2 f64_arith p66 1 0)); [reflexivity|]. rewrite p66_10. apply f1_val.
Qed.
Print Assumptions C66_refuted.
