(** * RDet.v - the real determinant [rdet] of SpecReal.v (expansion along the first row): row
    linearity, alternation, row operations, triangular matrices, and how it changes when a
    dominant matrix is perturbed.  Proofs only. *)
From Coq Require Import List Arith Bool Lia ZArith Reals Lra.
From Verif Require Import SpecReal FloatErr GJReal.
Import ListNotations.
Local Open Scope R_scope.

Definition eqm (n : nat) (M N : nat -> nat -> R) : Prop := forall i j, (i < n)%nat -> (j < n)%nat -> M i j = N i j.
Definition sg (j : nat) : R := if Nat.even j then 1 else -1.
Definition mn (j : nat) (M : nat -> nat -> R) : nat -> nat -> R := fun a b => M (S a) (over j b).
Lemma over_lt n j b : (j <= n)%nat -> (b < n)%nat -> (over j b < S n)%nat.
Proof. unfold over. destruct (Nat.ltb_spec b j); lia. Qed.
Lemma rdet_S n M : rdet (S n) M = rsum (S n) (fun j => sg j * M 0%nat j * rdet n (mn j M)).
Proof. reflexivity. Qed.
Lemma rdet_ext n : forall M N, eqm n M N -> rdet n M = rdet n N.
Proof.
  induction n as [|n IH]; intros M N H; [reflexivity|]. rewrite !rdet_S. apply rsum_ext. intros j Hj. rewrite (H 0%nat j) by lia. f_equal.
  apply IH. intros a b Ha Hb. unfold mn. apply H; [lia|]. apply over_lt; lia.
Qed.

(** ** Rows *)
Definition setrow (i : nat) (v : nat -> R) (M : nat -> nat -> R) : nat -> nat -> R := fun a b => if (a =? i)%nat then v b else M a b.
Lemma mn_set0 j v M : mn j (setrow 0 v M) = mn j M.
Proof. reflexivity. Qed.
Lemma mn_setS j i v M : mn j (setrow (S i) v M) = setrow i (fun b => v (over j b)) (mn j M).
Proof. reflexivity. Qed.
Lemma det_lin n : forall i a b v w M, (i < n)%nat ->
  rdet n (setrow i (fun j => a * v j + b * w j) M) = a * rdet n (setrow i v M) + b * rdet n (setrow i w M).
Proof.
  induction n as [|n IH]; intros i a b v w M Hi; [lia|]. rewrite !rdet_S, <- !rsum_scal, <- rsum_plus. apply rsum_ext. intros j Hj.
  destruct i as [|i].
  - rewrite !mn_set0. unfold setrow. cbn [Nat.eqb]. ring.
  - rewrite !mn_setS. rewrite (IH i a b (fun b0 => v (over j b0)) (fun b0 => w (over j b0))) by lia. change (setrow (S i) (fun j0 : nat => a * v j0 + b * w j0) M 0%nat j) with (M 0%nat j). change (setrow (S i) v M 0%nat j) with (M 0%nat j). change (setrow (S i) w M 0%nat j) with (M 0%nat j). ring.
Qed.
Lemma det_add n i v w M : (i < n)%nat -> rdet n (setrow i (fun j => v j + w j) M) = rdet n (setrow i v M) + rdet n (setrow i w M).
Proof.
  intros Hi. rewrite <- (Rmult_1_l (rdet n (setrow i v M))), <- (Rmult_1_l (rdet n (setrow i w M))), <- det_lin by exact Hi.
  apply rdet_ext. intros a b _ _. unfold setrow. destruct (a =? i)%nat; ring.
Qed.
Lemma det_scal n i c v M : (i < n)%nat -> rdet n (setrow i (fun j => c * v j) M) = c * rdet n (setrow i v M).
Proof.
  intros Hi. pose proof (det_lin n i c 0 v v M Hi) as H. rewrite Rmult_0_l, Rplus_0_r in H. rewrite <- H.
  apply rdet_ext. intros a b _ _. unfold setrow. destruct (a =? i)%nat; ring.
Qed.
Lemma det_zero_row n i M : (i < n)%nat -> rdet n (setrow i (fun _ => 0) M) = 0.
Proof.
  intros Hi. pose proof (det_scal n i 0 (fun _ => 0) M Hi) as H. rewrite Rmult_0_l in H. refine (eq_trans _ H).
  apply rdet_ext. intros a b _ _. unfold setrow. destruct (a =? i)%nat; ring.
Qed.
Lemma det_rsum n i (c : nat -> R) (V : nat -> nat -> R) M p : (i < n)%nat ->
  rdet n (setrow i (fun j => rsum p (fun l => c l * V l j)) M) = rsum p (fun l => c l * rdet n (setrow i (V l) M)).
Proof.
  intros Hi. induction p as [|p IH]; [now apply det_zero_row|]. rewrite rsum_S, <- IH, <- det_scal, <- det_add by exact Hi.
  apply rdet_ext. intros a b _ _. unfold setrow. destruct (a =? i)%nat; [apply rsum_S|reflexivity].
Qed.
Lemma setrow_same n i M : eqm n (setrow i (M i) M) M.
Proof. intros a b _ _. unfold setrow. destruct (Nat.eqb_spec a i) as [->|]; reflexivity. Qed.

(** ** Two equal rows *)
(** Sum over the indices different from [j]. *)
Lemma rsum_over n j h : (j <= n)%nat -> rsum n (fun l => h (over j l)) = rsum (S n) (fun b => if (b =? j)%nat then 0 else h b).
Proof.
  intros Hj. rewrite rsum_upd by lia. rewrite Rplus_0_r. induction n as [|n IH].
  - replace j with 0%nat by lia. rewrite rsum_S, !rsum_0. ring.
  - rewrite rsum_S. destruct (Nat.eq_dec j (S n)) as [->|Hjn].
    + rewrite (rsum_S (S n)). unfold over at 2. rewrite (proj2 (Nat.ltb_lt n (S n))) by lia.
      rewrite (rsum_ext n (fun l => h (over (S n) l)) h).
      * rewrite (rsum_S n). ring.
      * intros l Hl. unfold over. rewrite (proj2 (Nat.ltb_lt l (S n))) by lia. reflexivity.
    + rewrite IH by lia. rewrite (rsum_S (S n)). unfold over. rewrite (proj2 (Nat.ltb_ge n j)) by lia. ring.
Qed.
(** The column left over. *)
Definition und (j b : nat) : nat := if (b <? j)%nat then b else (b - 1)%nat.
Lemma und_over j l : und j (over j l) = l.
Proof. unfold und, over. destruct (Nat.ltb_spec l j) as [H|H]; [rewrite (proj2 (Nat.ltb_lt l j) H); lia|rewrite (proj2 (Nat.ltb_ge (S l) j)); lia]. Qed.
Lemma sg_S j : sg (S j) = - sg j.
Proof. unfold sg. rewrite Nat.even_succ, <- Nat.negb_even. destruct (Nat.even j); cbn; lra. Qed.
Lemma sg_anti j b : j <> b -> sg j * sg (und j b) = - (sg b * sg (und b j)).
Proof.
  intros H. unfold und. destruct (Nat.ltb_spec b j), (Nat.ltb_spec j b); try lia.
  - replace j with (S (j - 1)) at 1 by lia. rewrite sg_S. ring.
  - replace b with (S (b - 1)) at 2 by lia. rewrite sg_S. ring.
Qed.
Lemma over_sym j b c : j <> b -> over j (over (und j b) c) = over b (over (und b j) c).
Proof.
  intros H. unfold over, und. destruct (Nat.ltb_spec b j), (Nat.ltb_spec j b); try lia;
  repeat match goal with |- context [(?x <? ?y)%nat] => destruct (Nat.ltb_spec x y) end; lia.
Qed.
Lemma anti_sum n (t : nat -> nat -> R) : (forall a b, (a < n)%nat -> (b < n)%nat -> t a b = - t b a) -> rsum n (fun a => rsum n (t a)) = 0.
Proof.
  intros H. assert (E : rsum n (fun a => rsum n (t a)) = - rsum n (fun a => rsum n (t a))).
  { rewrite rsum_swap at 1. replace (- rsum n (fun a => rsum n (t a))) with (-1 * rsum n (fun a => rsum n (t a))) by ring.
    rewrite <- rsum_scal. apply rsum_ext. intros a Ha. rewrite <- rsum_scal. apply rsum_ext. intros b Hb. rewrite (H b a) by assumption. ring. }
  lra.
Qed.
Lemma det_adj n : forall i M, (S i < n)%nat -> (forall j, (j < n)%nat -> M i j = M (S i) j) -> rdet n M = 0.
Proof.
  induction n as [|n IH]; intros i M Hi H; [lia|]. rewrite rdet_S. destruct i as [|i].
  - destruct n as [|n]; [lia|].
    set (D := fun j b => rdet n (fun x y => M (S (S x)) (over j (over (und j b) y)))).
    set (t := fun j b => if (b =? j)%nat then 0 else sg j * sg (und j b) * M 0%nat j * M 0%nat b * D j b).
    rewrite (rsum_ext (S (S n)) _ (fun j => rsum (S (S n)) (t j))).
    + apply anti_sum. intros a b Ha Hb. unfold t. rewrite (Nat.eqb_sym b a). destruct (Nat.eqb_spec a b) as [|Hab]; [ring|].
      rewrite (sg_anti a b Hab). replace (D a b) with (D b a); [ring|]. unfold D. apply rdet_ext. intros x y _ _.
      now rewrite (over_sym a b y Hab).
    + intros j Hj. unfold t. rewrite <- (rsum_over (S n) j (fun b => sg j * sg (und j b) * M 0%nat j * M 0%nat b * D j b)) by lia.
      rewrite rdet_S, <- rsum_scal. apply rsum_ext. intros l Hl. rewrite und_over.
      unfold mn at 1. rewrite <- H by (apply over_lt; lia).
      replace (D j (over j l)) with (rdet n (mn l (mn j M))); [ring|]. unfold D. rewrite und_over. reflexivity.
  - rewrite (rsum_ext (S n) _ (fun _ => 0)); [rewrite rsum_const; ring|]. intros j Hj.
    rewrite (IH i (mn j M)); [ring|lia|]. intros b Hb. unfold mn. apply H. apply over_lt; lia.
Qed.
(** Exchanging two adjacent rows. *)
Definition swap (i : nat) (M : nat -> nat -> R) : nat -> nat -> R :=
  fun a b => if (a =? i)%nat then M (S i) b else if (a =? S i)%nat then M i b else M a b.
Lemma det_swap n i M : (S i < n)%nat -> rdet n (swap i M) = - rdet n M.
Proof.
  intros Hi.
  set (N := fun v w => setrow i v (setrow (S i) w M)).
  assert (Z : forall v, rdet n (N v v) = 0).
  { intros v. apply (det_adj n i); [exact Hi|]. intros j _. unfold N, setrow. rewrite !Nat.eqb_refl. destruct (S i =? i)%nat; reflexivity. }
  assert (L1 : forall v v' w, rdet n (N (fun j => v j + v' j) w) = rdet n (N v w) + rdet n (N v' w)).
  { intros. unfold N. apply det_add. lia. }
  assert (L2 : forall v w w', rdet n (N v (fun j => w j + w' j)) = rdet n (N v w) + rdet n (N v w')).
  { intros v w w'. assert (C : forall w, eqm n (N v w) (setrow (S i) w (setrow i v M))).
    { intros w0 a b _ _. unfold N, setrow. destruct (Nat.eqb_spec a i), (Nat.eqb_spec a (S i)); try lia; reflexivity. }
    rewrite !(rdet_ext n _ _ (C _)). apply det_add. lia. }
  assert (E1 : rdet n (N (M i) (M (S i))) = rdet n M).
  { apply rdet_ext. intros a b _ _. unfold N, setrow. destruct (Nat.eqb_spec a i) as [->|]; [reflexivity|].
    destruct (Nat.eqb_spec a (S i)) as [->|]; reflexivity. }
  assert (E2 : rdet n (N (M (S i)) (M i)) = rdet n (swap i M)) by (apply rdet_ext; intros a b _ _; reflexivity).
  pose proof (Z (fun j => M i j + M (S i) j)) as H. rewrite L1, !L2 in H.
  rewrite (Z (M i)), (Z (M (S i))), E1 in H. change (N (M (S i)) (M i)) with (swap i M) in H. lra.
Qed.
Lemma det_eqrows n i k M : (i < k < n)%nat -> (forall j, (j < n)%nat -> M i j = M k j) -> rdet n M = 0.
Proof.
  intros Hik. remember (k - S i)%nat as g eqn:Eg. revert k M Hik Eg. induction g as [|g IH]; intros k M Hik Eg H.
  - apply (det_adj n i); [lia|]. intros j Hj. replace (S i) with k by lia. now apply H.
  - destruct k as [|k]; [lia|]. assert (E : rdet n (swap k M) = 0).
    { apply (IH k); [lia|lia|]. intros j Hj. unfold swap. rewrite Nat.eqb_refl. destruct (Nat.eqb_spec i k); [lia|].
      destruct (Nat.eqb_spec i (S k)); [lia|]. now apply H. }
    rewrite det_swap in E by lia. lra.
Qed.
Lemma det_setrow_other n i k M : (i < n)%nat -> (k < n)%nat -> i <> k -> rdet n (setrow i (M k) M) = 0.
Proof.
  intros Hi Hk H. destruct (Nat.lt_ge_cases i k) as [L|L].
  - apply (det_eqrows n i k); [lia|]. intros j _. unfold setrow. rewrite Nat.eqb_refl. now rewrite (proj2 (Nat.eqb_neq k i)) by lia.
  - apply (det_eqrows n k i); [lia|]. intros j _. unfold setrow. rewrite Nat.eqb_refl. now rewrite (proj2 (Nat.eqb_neq k i)) by lia.
Qed.
(** Adding a multiple of another row. *)
Lemma det_rowop n i k c M : (i < n)%nat -> (k < n)%nat -> i <> k -> rdet n (setrow i (fun j => M i j - c * M k j) M) = rdet n M.
Proof.
  intros Hi Hk H. rewrite (rdet_ext n _ (setrow i (fun j => 1 * M i j + (- c) * M k j) M)).
  - rewrite (det_lin n i 1 (- c) (M i) (M k) M Hi). rewrite (det_setrow_other n i k M) by assumption. rewrite (rdet_ext n (setrow i (M i) M) M) by apply setrow_same. ring.
  - intros a b _ _. unfold setrow. destruct (a =? i)%nat; ring.
Qed.
(** Replacing a row by a combination of rows. *)
Lemma det_comb n i c M : (i < n)%nat -> rdet n (setrow i (fun j => rsum n (fun l => c l * M l j)) M) = c i * rdet n M.
Proof.
  intros Hi. rewrite det_rsum by exact Hi. rewrite <- (rsum_one n i (fun l => c l * rdet n M) Hi). apply rsum_ext. intros l Hl.
  destruct (Nat.eqb_spec l i) as [->|Hli].
  - f_equal. apply rdet_ext, setrow_same.
  - rewrite det_setrow_other by auto. ring.
Qed.

(** ** Triangular matrices *)
Lemma det_col0 n : forall M, (0 < n)%nat -> (forall i, (i < n)%nat -> M i 0%nat = 0) -> rdet n M = 0.
Proof.
  induction n as [|n IH]; intros M Hn H; [lia|]. rewrite rdet_S. rewrite (rsum_ext (S n) _ (fun _ => 0)); [rewrite rsum_const; ring|].
  intros j Hj. destruct j as [|j]; [rewrite H by lia; ring|]. rewrite (IH (mn (S j) M)); [ring|lia|]. intros i Hi. unfold mn, over.
  rewrite (proj2 (Nat.ltb_lt 0 (S j))) by lia. apply H. lia.
Qed.
Fixpoint rprod (n : nat) (f : nat -> R) : R := match n with 0%nat => 1 | S n' => rprod n' f * f n' end.
Lemma rprod_shift n f : rprod (S n) f = f 0%nat * rprod n (fun i => f (S i)).
Proof. induction n as [|n IH]; [cbn; ring|]. cbn [rprod] in *. rewrite IH. ring. Qed.
Lemma det_upper n : forall M, (forall i j, (j < i < n)%nat -> M i j = 0) -> rdet n M = rprod n (fun i => M i i).
Proof.
  induction n as [|n IH]; intros M H; [reflexivity|]. rewrite rdet_S, rprod_shift.
  rewrite (rsum_ext (S n) _ (fun j => if (j =? 0)%nat then M 0%nat 0%nat * rdet n (mn 0 M) else 0)).
  - rewrite (rsum_one (S n) 0 (fun _ => M 0%nat 0%nat * rdet n (mn 0 M))) by lia. f_equal. rewrite IH.
    + clear. generalize n. induction n0 as [|k IHk]; [reflexivity|]. cbn [rprod]. rewrite IHk. reflexivity.
    + intros i j Hij. unfold mn, over. destruct (Nat.ltb_spec j 0); [lia|]. apply H. lia.
  - intros j Hj. destruct j as [|j]; [unfold sg; cbn; ring|]. cbn [Nat.eqb]. destruct n as [|n']; [lia|].
    rewrite (det_col0 (S n') (mn (S j) M)); [ring|lia|]. intros i Hi. unfold mn, over. rewrite (proj2 (Nat.ltb_lt 0 (S j))) by lia. apply H. lia.
Qed.

(** ** Relative error *)
Definition rel (q d x : R) : Prop := Rabs (x - d) <= (q - 1) * Rabs d.
Lemma rel_refl d : rel 1 d d.
Proof. unfold rel, Rminus. rewrite !Rplus_opp_r, Rabs_R0. lra. Qed.
Lemma rel_abs q d x : rel q d x -> Rabs x <= q * Rabs d.
Proof. unfold rel. intros H. pose proof (Rabs_triang (x - d) d) as T. replace (x - d + d) with x in T by ring. lra. Qed.
Lemma rel_trans q q' d x z : 1 <= q' -> rel q d x -> rel q' x z -> rel (q * q') d z.
Proof.
  intros Hq H1 H2. pose proof (rel_abs _ _ _ H1) as H3. unfold rel in *. pose proof (Rabs_triang (z - x) (x - d)) as T.
  replace (z - x + (x - d)) with (z - d) in T by ring.
  assert ((q' - 1) * Rabs x <= (q' - 1) * (q * Rabs d)) by (apply Rmult_le_compat_l; lra). lra.
Qed.
Lemma rel_weaken q q' d x : rel q d x -> q <= q' -> rel q' d x.
Proof. unfold rel. intros H1 H2. apply Rle_trans with (1 := H1). apply Rmult_le_compat_r; [apply Rabs_pos|lra]. Qed.

(** ** Perturbed dominant matrices *)
Section Dom.
Variable n : nat.
Variable del : R.
Hypothesis Hdel : 0 < del.
Definition dom (G : nat -> nat -> R) : Prop := forall i, (i < n)%nat -> rsum n (fun j => Rabs (G i j)) + del <= 2 * Rabs (G i i).
Lemma dom_inverse G : dom G -> exists X, real_inverse n G X.
Proof.
  intros H. set (d' := Rmin del 1). set (B := 1 + rsum n (fun i => rsum n (fun j => Rabs (G i j)))).
  assert (P0 : forall i, 0 <= rsum n (fun j => Rabs (G i j))) by (intros; apply rsum_pos; intros; apply Rabs_pos).
  exists (snd (gjr G n)). apply (dom_inverse_1 n G d') with B.
  - unfold d'. apply Rmin_glb_lt; lra.
  - intros i Hi. specialize (H i Hi). pose proof (Rmin_l del 1). unfold d'. lra.
  - apply Rmin_r.
  - unfold B. pose proof (rsum_pos n (fun i => rsum n (fun j => Rabs (G i j))) (fun i _ => P0 i)). lra.
  - intros i Hi. unfold B. pose proof (rsum_term n (fun i => rsum n (fun j => Rabs (G i j))) i (fun i _ => P0 i) Hi). cbv beta in *. lra.
Qed.
Lemma det_row_pert G i v e : dom G -> (i < n)%nat -> (forall j, (j < n)%nat -> Rabs (v j - G i j) <= e) ->
  rel (1 + INR n * e / del) (rdet n G) (rdet n (setrow i v G)).
Proof.
  intros H Hi Hv. destruct (dom_inverse G H) as [X HX].
  set (E := fun j => v j - G i j). set (c := fun l => rsum n (fun j => E j * X j l)).
  assert (EE : forall b, (b < n)%nat -> E b = rsum n (fun l => c l * G l b)).
  { intros b Hb. unfold c. rewrite (rsum_ext n _ (fun l => rsum n (fun j => E j * X j l * G l b))) by (intros; now rewrite rsum_scal_r).
    rewrite rsum_swap. rewrite <- (rsum_one n b E Hb). apply rsum_ext. intros j Hj.
    rewrite (rsum_ext n _ (fun l => E j * (X j l * G l b))) by (intros; ring). rewrite rsum_scal, (proj2 (HX j b Hj Hb)).
    destruct (j =? b)%nat; ring. }
  assert (ED : rdet n (setrow i v G) = rdet n G + c i * rdet n G).
  { rewrite <- (det_comb n i c G Hi). rewrite <- (rdet_ext n _ _ (setrow_same n i G)) at 1. rewrite <- det_add by exact Hi.
    apply rdet_ext. intros a b _ Hb. unfold setrow. destruct (a =? i)%nat; [|reflexivity]. rewrite <- EE by exact Hb. unfold E. ring. }
  assert (HXb : forall j, (j < n)%nat -> Rabs (X j i) <= / del).
  { intros j Hj. replace (/ del) with (1 / del) by (field; lra). apply (dom_bound n G del Hdel H (fun j => X j i)); [|exact Hj].
    intros a Ha. rewrite (proj1 (HX a i Ha Hi)). exact (dl_le a i). }
  unfold rel. rewrite ED. replace (rdet n G + c i * rdet n G - rdet n G) with (c i * rdet n G) by ring. rewrite Rabs_mult.
  apply Rmult_le_compat_r; [apply Rabs_pos|]. replace (1 + INR n * e / del - 1) with (INR n * (e * / del)) by (field; lra).
  exact (rsum_mul_le n E (fun j => X j i) e (/ del) Hv HXb).
Qed.
Lemma det_pert G H e : 0 <= e -> dom G -> dom H -> (forall i j, (i < n)%nat -> (j < n)%nat -> Rabs (H i j - G i j) <= e) ->
  rel ((1 + INR n * e / del) ^ n) (rdet n G) (rdet n H).
Proof.
  intros He DG DH HE. set (q := 1 + INR n * e / del).
  assert (Hq : 1 <= q).
  { unfold q. assert (0 <= INR n * e / del); [|lra]. apply Rmult_le_pos; [apply Rmult_le_pos; [apply pos_INR|exact He]|]. left. now apply Rinv_0_lt_compat. }
  set (K := fun r i j => if (i <? r)%nat then H i j else G i j).
  assert (DK : forall r, dom (K r)).
  { intros r i Hi. unfold K. destruct (i <? r)%nat; [now apply DH|now apply DG]. }
  assert (L : forall r, (r <= n)%nat -> rel (q ^ r) (rdet n G) (rdet n (K r))).
  { induction r as [|r IH]; intros Hr.
    - replace (rdet n (K 0%nat)) with (rdet n G); [apply rel_refl|]. apply rdet_ext. intros i j _ _. reflexivity.
    - cbn [pow]. rewrite Rmult_comm. apply rel_trans with (rdet n (K r)); [exact Hq|apply IH; lia|].
      replace (rdet n (K (S r))) with (rdet n (setrow r (H r) (K r))).
      + apply det_row_pert; [apply DK|lia|]. intros j Hj. unfold K. rewrite (proj2 (Nat.ltb_ge r r)) by lia. apply HE; lia.
      + apply rdet_ext. intros a b _ _. unfold setrow, K. destruct (Nat.eqb_spec a r) as [->|].
        * now rewrite (proj2 (Nat.ltb_lt r (S r))) by lia.
        * destruct (Nat.ltb_spec a r), (Nat.ltb_spec a (S r)); try lia; reflexivity. }
  specialize (L n ltac:(lia)). replace (rdet n H) with (rdet n (K n)); [exact L|]. apply rdet_ext. intros i j Hi _. unfold K.
  now rewrite (proj2 (Nat.ltb_lt i n) Hi).
Qed.
End Dom.
