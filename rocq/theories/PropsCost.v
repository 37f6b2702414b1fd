(** * PropsCost.v - C71: how many element operations the products and [pow] perform. *)
From Coq Require Import List Arith Bool Lia.
From Verif Require Import Rust Iter Elem VectorM MatIterM MatrixM ArithM SpecCommon Harness IterProofs OwnProofs VecProofs MatProofs SpecAlg SpecCost Sim Algebra PropsOrder CostProofs.
Import ListNotations.

Lemma fold_left_in {X Y} (f g : X -> Y -> X) l : forall z, (forall z y, In y l -> f z y = g z y) -> fold_left f l z = fold_left g l z.
Proof. induction l as [|y l IH]; intros z H; [reflexivity|]. cbn [fold_left]. rewrite H by now left. apply IH. intros; apply H; now right. Qed.
(** An [l] x [n] times [n] x [r] product multiplies and adds exactly [l * n * r] times. *)
Theorem C71_product_cost :
  forall T (A : arith T) dv iz w (c : cfg) (d : ety nat T) l n r a b,
  rect l n a -> rect n r b -> l < W c -> n < W c -> r < W c ->
  let o := counting A dv iz w in
  let by_value := l * n * r * (w_mul w + w_add w + 2 * w_clone w) in
  let by_ref := l * n * r * (w_mul w + w_add w + w_clone w) in
  spends (mmul_vv c d o l n r a b) (m_mul A l n r a b) by_value /\
  spends (mmul_rv c d o l n r a b) (m_mul A l n r a b) by_value /\
  spends (mmul_vr c d o l n r a b) (m_mul A l n r a b) by_ref /\
  spends (mmul_rr c d o l n r a b) (m_mul A l n r a b) by_ref.
Proof.
  intros T A dv iz w c d l n r a b Ra Rb H1 H2 H3 o bv br.
  assert (V : spends (mmul_vv c d o l n r a b) (m_mul A l n r a b) bv).
  { eapply sp_eq; [now apply sp_mmul_vv|reflexivity|unfold bv; lia]. }
  assert (R : spends (mmul_vr c d o l n r a b) (m_mul A l n r a b) br).
  { eapply sp_eq; [now apply sp_mmul_vr|reflexivity|unfold br; lia]. }
  repeat split; [exact V|exact V|exact R|exact R].
Qed.
Print Assumptions C71_product_cost.
(** [m * v] and [m * &v]. *)
Theorem C71_matrix_vector_cost :
  forall T (A : arith T) dv iz w (c : cfg) (d : ety nat T) row col m v,
  rect row col m -> length v = col -> row < W c -> col < W c ->
  let o := counting A dv iz w in
  spends (mmulv c d o row col m v) (m_mulv A row col m v) (row * col * (w_mul w + w_add w + 2 * w_clone w)) /\
  spends (mmulv_ref c d o row col m v) (m_mulv A row col m v) (row * col * (w_mul w + w_add w)).
Proof.
  intros T A dv iz w c d row col m v R Lv H1 H2 o.
  assert (EV : m_mulv A row col m v = map (fun r => sum A col (fun k => a_mul A (at1 A r k) (at1 A v k))) m).
  { transitivity (map (fun r => sum A col (fun k => a_mul A (at1 A r k) (at1 A v k))) (mat row col (at2 A m))); [|now rewrite mat_at2].
    unfold m_mulv, vec, mat. rewrite map_map. apply map_ext_in. intros i Hi. apply in_seq in Hi.
    unfold sum. apply fold_left_in. intros z k Hk. apply in_seq in Hk. do 2 f_equal.
    unfold at1. rewrite (nth_indep _ _ (at2 A m i 0)) by (rewrite map_length, seq_length; lia).
    rewrite (map_nth (fun j0 => at2 A m i j0)). now rewrite seq_nth by lia. }
  split.
  - eapply sp_ext; [intros s; now apply C70_matrix_vector|].
    pose proof (sp_in_order (fun r => running_sum o (term_right_first o) (combine r v))
      (fun r => sum A col (fun k => a_mul A (at1 A r k) (at1 A v k))) (col * (w_mul w + w_add w + 2 * w_clone w)) m) as G.
    rewrite (proj1 R) in G. eapply sp_eq; [apply G|now symmetry|lia]. intros r Hr. pose proof (rect_row _ _ _ _ R Hr) as Lr.
    eapply sp_eq; [apply (sp_running A dv iz w (term_right_first o) (fun p => a_mul A (fst p) (snd p)) (2 * w_clone w + w_mul w))|now apply sum_terms|].
    + intros p s. unfold term_right_first, bind. cbn. f_equal. lia.
    + rewrite combine_length, Lr, Lv, Nat.min_id. lia.
  - eapply sp_ext; [intros s; now apply C70_matrix_vector_ref|].
    assert (E : forall s, in_order_unwind (fold_left (fun s r => fold_left (fun s x => e_drop d x s) r s))
      (fun r => running_sum_owned d o (combine r v) (o_zero o)) m s = (Ok (m_mulv A row col m v), s + row * (col * (w_mul w + w_add w)))).
    { rewrite EV. rewrite <- (proj1 R).
      assert (HR : forall r, In r m -> length r = col) by (intros; eapply rect_row; eauto). clear R EV.
      induction m as [|r m IH]; intros s; cbn [in_order_unwind map length Nat.mul]; [now rewrite Nat.add_0_r|].
      assert (E1 : running_sum_owned d o (combine r v) (o_zero o) s =
         (Ok (sum A col (fun k => a_mul A (at1 A r k) (at1 A v k))), s + col * (w_mul w + w_add w))).
      { pose proof (HR r (or_introl eq_refl)) as Lr. rewrite <- (sum_terms A col r v Lr Lv).
        replace col with (length (combine r v)) at 1 by (rewrite combine_length, Lr, Lv; apply Nat.min_id).
        change (o_zero o) with (a_zero A). generalize (a_zero A) as z. generalize (combine r v) as L. clear. intros L. revert s.
        induction L as [|p L IH]; intros s z; cbn [running_sum_owned fold_left length Nat.mul]; [now rewrite Nat.add_0_r|].
        unfold bind. cbn [o counting o_mul o_add]. rewrite IH. f_equal. lia. }
      rewrite E1. rewrite IH by (intros; apply HR; now right). f_equal. lia. }
    intros s. rewrite E. f_equal. lia.
Qed.
Print Assumptions C71_matrix_vector_cost.
(** [m.pow(e)], [e >= 1]: one product for each binary digit of [e] after the first and one more
    for each of these digits that is a one. *)
Theorem C71_pow_cost :
  forall T (A : arith T) dv iz w (c : cfg) (d : ety nat T) n m e,
  semiring A -> rect n n m -> n < W c -> 1 <= e ->
  exists clones, clones <= Nat.log2 e + ones e + 1 /\
  spends (mpow c d (counting A dv iz w) n m e) (m_pow A n m e)
    ((Nat.log2 e + ones e - 1) * (n * n * n * (w_mul w + w_add w + 2 * w_clone w)) + clones * (n * n * w_clone w)).
Proof.
  intros T A dv iz w c d n m e L R HW He. set (o := counting A dv iz w).
  exists (Nat.log2 e + ones e - 1 + (if ones e =? 1 then 0 else 1) + 1). split.
  - pose proof (ones_ge e He). destruct (Nat.eqb_spec (ones e) 1); lia.
  - unfold mpow. rewrite <- (pnum_pow_m A L n m e R).
    pose proof (sp_num_pow (rect n n) (mmul_vv c d o n n n) (m_mul A n n n) (mclone c d (o_clone o) n n)
      (n * (n * (n * (2 * w_clone w + w_mul w + w_add w)))) (n * (n * w_clone w))) as G.
    eapply sp_eq; [eapply sp_bind; [now apply sp_mclone|]|reflexivity|].
    + eapply sp_ext; [|refine (G _ _ (m_id A n) m e R He)].
      * intros s. unfold num_pow. destruct (Nat.eqb_spec e 0); [lia|reflexivity].
      * intros x y Rx Ry. split; [now apply sp_mmul_vv|apply mat_rect].
      * intros x Rx. now apply sp_mclone.
    + set (q := Nat.log2 e + ones e - 1). destruct (ones e =? 1); lia.
Qed.
Print Assumptions C71_pow_cost.
Definition nat_arith : arith nat := Arith 0 1 Nat.add Nat.sub Nat.mul (fun x => x).
(** Multiplications of [m.pow(10)], a 2 x 2 matrix: 10 = 1010b, so 3 + 1 products of 8. *)
Example C71_ex : ones 10 = 2 /\ Nat.log2 10 = 3 /\
  snd (mpow dbg (Ety (fun _ s => s) true) (counting nat_arith Nat.div (Nat.eqb 0) (Weights 0 0 1 0 0 0)) 2 [[1; 1]; [1; 0]] 10 0) = 32 /\
  fst (mpow dbg (Ety (fun _ s => s) true) (counting nat_arith Nat.div (Nat.eqb 0) (Weights 0 0 1 0 0 0)) 2 [[1; 1]; [1; 0]] 10 0)
    = Ok [[89; 55]; [55; 34]] /\ semiring nat_arith.
Proof. repeat split; intros; try (vm_compute; reflexivity); cbn; lia. Qed.
