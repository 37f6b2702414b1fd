(** * CostProofs.v - costs of the products and of [pow] (lemmas for PropsCost). *)
From Coq Require Import List Arith Bool Lia NArith PArith.
From Verif Require Import Rust Iter Elem VectorM MatIterM MatrixM ArithM SpecCommon Harness IterProofs OwnProofs VecProofs MatProofs SpecAlg SpecCost Sim PropsOrder.
Import ListNotations.

(** ** Composition *)
Lemma sp_ret {T} (v : T) : spends (ret v) v 0.
Proof. intros s. unfold ret. now rewrite Nat.add_0_r. Qed.
Lemma sp_bind {A B} (m : M nat A) (f : A -> M nat B) v u k1 k2 : spends m v k1 -> spends (f v) u k2 -> spends (bind m f) u (k1 + k2).
Proof. intros H1 H2 s. unfold bind. rewrite H1, H2. now rewrite Nat.add_assoc. Qed.
Lemma sp_eq {T} (m : M nat T) v v' k k' : spends m v k -> v = v' -> k = k' -> spends m v' k'.
Proof. now intros H <- <-. Qed.
Lemma sp_ext {T} (m m' : M nat T) v k : (forall s, m s = m' s) -> spends m' v k -> spends m v k.
Proof. intros E H s. now rewrite E. Qed.
Lemma sp_in_order {A B} (f : A -> M nat B) (g : A -> B) w l :
  (forall x, In x l -> spends (f x) (g x) w) -> spends (in_order f l) (map g l) (length l * w).
Proof.
  induction l as [|x l IH]; intros H s; cbn [in_order map length Nat.mul]; [now rewrite Nat.add_0_r|].
  rewrite (H x (or_introl eq_refl)). rewrite IH by (intros y Hy; apply H; now right). now rewrite Nat.add_assoc.
Qed.
Lemma sp_fold {A B} (f : B -> A -> M nat B) (g : B -> A -> B) w l : forall b,
  (forall b x, In x l -> spends (f b x) (g b x) w) -> spends (fold_in_order f l b) (fold_left g l b) (length l * w).
Proof.
  induction l as [|x l IH]; intros b H s; cbn [fold_in_order fold_left length Nat.mul]; [now rewrite Nat.add_0_r|].
  rewrite (H b x (or_introl eq_refl)). rewrite IH by (intros; apply H; now right). now rewrite Nat.add_assoc.
Qed.
Lemma combine_at {T} (A : arith T) n (a b : list T) : length a = n -> length b = n ->
  combine a b = map (fun k => (at1 A a k, at1 A b k)) (seq 0 n).
Proof.
  revert n b. induction a as [|x a IH]; intros n [|y b] <- Lb; try discriminate; [reflexivity|].
  cbn [length seq combine map]. cbn in Lb. rewrite (IH (length a) b eq_refl) by lia. rewrite <- seq_shift, map_map. reflexivity.
Qed.

Section Cost.
Context {T : Type} (A : arith T) (dv : T -> T -> T) (iz : T -> bool) (w : weights) (c : cfg) (d : ety nat T).
Notation o := (counting A dv iz w).
Lemma sp_running {X} (term : X -> M nat T) (g : X -> T) k l :
  (forall x, spends (term x) (g x) k) ->
  spends (running_sum o term l) (fold_left (fun acc x => a_add A acc (g x)) l (a_zero A)) (length l * (k + w_add w)).
Proof.
  intros H. apply (sp_fold (fun acc x => t <- term x ;; o_add o acc t)). intros b x _. eapply sp_bind; [apply H|]. intros s. reflexivity.
Qed.
Lemma sp_term_cloned p : spends (term_cloned d o p) (a_mul A (fst p) (snd p)) (2 * w_clone w + w_mul w).
Proof. intros s. unfold term_cloned, clone_both, bind. cbn. f_equal. lia. Qed.
Lemma sp_term_left p : spends (term_left o p) (a_mul A (fst p) (snd p)) (w_clone w + w_mul w).
Proof. intros s. unfold term_left, bind. cbn. f_equal. lia. Qed.
Lemma sum_terms n a b : length a = n -> length b = n ->
  fold_left (fun acc x => a_add A acc (a_mul A (fst x) (snd x))) (combine a b) (a_zero A)
  = sum A n (fun k => a_mul A (at1 A a k) (at1 A b k)).
Proof.
  intros Ha Hb. rewrite (combine_at A n) by assumption. unfold sum.
  assert (G : forall L z, fold_left (fun acc x => a_add A acc (a_mul A (fst x) (snd x))) (map (fun k => (at1 A a k, at1 A b k)) L) z
    = fold_left (fun acc k => a_add A acc (a_mul A (at1 A a k) (at1 A b k))) L z).
  { induction L as [|k L IH]; intros z; [reflexivity|]. cbn [map fold_left fst snd]. apply IH. }
  apply G.
Qed.
Lemma sp_product (entry_at : list T -> nat -> M nat T) k l n r a b :
  rect l n a -> rect n r b ->
  (forall lrow j, length lrow = n -> j < r -> spends (entry_at lrow j) (sum A n (fun k => a_mul A (at1 A lrow k) (at1 A (col_of b j) k))) k) ->
  spends (row_major r entry_at a) (m_mul A l n r a b) (l * (r * k)).
Proof.
  intros Ra Rb H. unfold row_major.
  pose proof (sp_in_order (fun lrow => in_order (entry_at lrow) (seq 0 r))
    (fun lrow => map (fun j => sum A n (fun k => a_mul A (at1 A lrow k) (at1 A (col_of b j) k))) (seq 0 r)) (r * k) a) as G.
  rewrite (proj1 Ra) in G. eapply sp_eq; [apply G| |reflexivity].
  - intros lrow Hin. pose proof (sp_in_order (entry_at lrow) (fun j => sum A n (fun k => a_mul A (at1 A lrow k) (at1 A (col_of b j) k))) k (seq 0 r)) as G2.
    rewrite seq_length in G2. apply G2. intros j Hj. apply in_seq in Hj. apply H; [eapply rect_row; eauto|lia].
  - unfold m_mul, mat. rewrite <- (mat_at2 A l n a Ra) at 1. unfold mat. rewrite map_map. apply map_ext_in. intros i Hi. apply in_seq in Hi.
    apply map_ext_in. intros j Hj. apply in_seq in Hj. unfold sum.
    assert (G3 : forall L z, (forall k, In k L -> k < n) ->
      fold_left (fun acc k0 => a_add A acc (a_mul A (at1 A (map (fun j0 => at2 A a i j0) (seq 0 n)) k0) (at1 A (col_of b j) k0))) L z =
      fold_left (fun acc k0 => a_add A acc (a_mul A (at2 A a i k0) (at2 A b k0 j))) L z).
    { induction L as [|q L IH]; intros z HL; [reflexivity|]. cbn [fold_left]. rewrite (at1_col_of A n r b j q) by (auto; try apply HL; try (now left); lia).
      replace (at1 A (map (fun j0 => at2 A a i j0) (seq 0 n)) q) with (at2 A a i q).
      - apply IH. intros; apply HL; now right.
      - unfold at1. rewrite (nth_indep _ _ (at2 A a i 0)) by (rewrite map_length, seq_length; apply HL; now left).
        rewrite (map_nth (fun j0 => at2 A a i j0)). rewrite seq_nth by (apply HL; now left). reflexivity. }
    apply G3. intros k0 Hk. apply in_seq in Hk. lia.
Qed.
Lemma sp_mmul_vv l n r a b : rect l n a -> rect n r b -> l < W c -> n < W c -> r < W c ->
  spends (mmul_vv c d o l n r a b) (m_mul A l n r a b) (l * (r * (n * (2 * w_clone w + w_mul w + w_add w)))).
Proof.
  intros Ra Rb H1 H2 H3. eapply sp_ext.
  - intros s. exact (proj1 (C70_matrix_product nat T c d o l n r a b s Ra Rb H1 H2 H3)).
  - apply sp_product; auto. intros lrow j L Hj. assert (Lc : length (col_of b j) = n) by (eapply col_of_length; eauto).
    eapply sp_eq; [apply sp_running, sp_term_cloned|now apply sum_terms|]. rewrite combine_length, L, Lc, Nat.min_id. reflexivity.
Qed.
Lemma sp_mmul_vr l n r a b : rect l n a -> rect n r b -> l < W c -> n < W c -> r < W c ->
  spends (mmul_vr c d o l n r a b) (m_mul A l n r a b) (l * (r * (n * (w_clone w + w_mul w + w_add w)))).
Proof.
  intros Ra Rb H1 H2 H3. eapply sp_ext.
  - intros s. exact (proj1 (proj2 (proj2 (C70_matrix_product nat T c d o l n r a b s Ra Rb H1 H2 H3)))).
  - apply sp_product; auto. intros lrow j L Hj. assert (Lc : length (col_of b j) = n) by (eapply col_of_length; eauto).
    eapply sp_eq; [apply sp_running, sp_term_left|now apply sum_terms|]. rewrite combine_length, L, Lc, Nat.min_id. reflexivity.
Qed.
Lemma sp_mclone row col m : rect row col m -> spends (mclone c d (o_clone o) row col m) m (row * (col * w_clone w)).
Proof.
  intros R. eapply sp_ext; [intros s; now rewrite mclone_spec by exact R|].
  pose proof (sp_in_order (in_order (o_clone o)) (fun r => r) (col * w_clone w) m) as G. rewrite map_id, (proj1 R) in G. apply G.
  intros r Hr. pose proof (sp_in_order (o_clone o) (fun x => x) (w_clone w) r) as G2. rewrite map_id, (rect_row _ _ _ _ R Hr) in G2. apply G2.
  intros x _ s. reflexivity.
Qed.
Lemma sp_midentity n : spends (midentity c d o n) (m_id A n) 0.
Proof.
  intros s. rewrite Nat.add_0_r. unfold midentity.
  rewrite (mgenerate_pure _ _ _ _ _ (fun i j => if i =? j then a_one A else a_zero A)); [reflexivity|].
  intros i j s0. destruct (i =? j); reflexivity.
Qed.
End Cost.

(** ** Exponentiation by squaring *)
Section Pow.
Context {X : Type} (P : X -> Prop) (mul : X -> X -> M nat X) (pmul : X -> X -> X) (clone : X -> M nat X) (km kc : nat).
Hypothesis Hmul : forall x y, P x -> P y -> spends (mul x y) (pmul x y) km /\ P (pmul x y).
Hypothesis Hclone : forall x, P x -> spends (clone x) x kc.
(** Squarings and extra multiplications still to do. *)
Lemma div2_lt e : 2 <= e -> 1 <= Nat.div2 e < e.
Proof. intros H. split; [destruct e as [|[|e]]; cbn; lia|apply Nat.lt_div2; lia]. Qed.
Lemma ones_div2 e : ones e = ones (Nat.div2 e) + (if Nat.odd e then 1 else 0).
Proof.
  unfold ones. rewrite Nat.div2_div, Nnat.Nat2N.inj_div. rewrite <- Nat.bit0_odd. change (N.of_nat 2) with 2%N. rewrite <- N.div2_div.
  replace (Nat.testbit e 0) with (N.odd (N.of_nat e)).
  - destruct (N.of_nat e) as [|[p|p|]]; unfold N.odd; cbn [N.div2 N.even negb ones_pos]; lia.
  - rewrite Nat.bit0_odd. destruct (Nat.Even_or_Odd e) as [[k ->]|[k ->]].
    + rewrite Nnat.Nat2N.inj_mul. rewrite N.odd_mul. rewrite Nat.odd_mul. reflexivity.
    + rewrite Nnat.Nat2N.inj_add, Nnat.Nat2N.inj_mul, N.odd_add, N.odd_mul, Nat.odd_add, Nat.odd_mul. reflexivity.
Qed.
Lemma log2_div2 e : 2 <= e -> Nat.log2 e = Datatypes.S (Nat.log2 (Nat.div2 e)).
Proof.
  intros H. pose proof (div2_lt e H). destruct (Nat.Even_or_Odd e) as [[k E]|[k E]].
  - assert (Nat.div2 e = k) by (rewrite E; apply Nat.div2_double). rewrite E at 1. rewrite Nat.log2_double by lia. congruence.
  - assert (Nat.div2 e = k) by (rewrite E, Nat.add_1_r; apply Nat.div2_succ_double). rewrite E at 1. rewrite Nat.log2_succ_double by lia. congruence.
Qed.
Lemma ones_ge e : 1 <= e -> 1 <= ones e.
Proof.
  unfold ones. destruct (N.of_nat e) as [|p] eqn:E; [destruct e; [lia|discriminate]|]. intros _. clear E. induction p; cbn; lia.
Qed.
Lemma sp_loop2 fuel : forall base acc e, P base -> P acc -> 1 <= e -> e <= fuel ->
  P (ppow_loop2 pmul fuel base acc e) /\
  spends (pow_loop2 mul clone fuel base acc e) (ppow_loop2 pmul fuel base acc e)
    ((Nat.log2 e + ones (Nat.div2 e)) * (km + kc)).
Proof using Hmul Hclone.
  induction fuel as [|fuel IH]; intros base acc e Pb Pa He Hf; [lia|]. cbn [pow_loop2 ppow_loop2].
  destruct (Nat.ltb_spec 1 e) as [H1|H1].
  2:{ assert (e = 1) by lia. subst e. split; [exact Pa|]. apply sp_ret. }
  pose proof (div2_lt e H1) as D. destruct (Hmul base base Pb Pb) as [Sb Pbb]. rewrite (log2_div2 e H1), (ones_div2 (Nat.div2 e)).
  destruct (Nat.odd (Nat.div2 e)).
  - destruct (Hmul acc (pmul base base) Pa Pbb) as [Sa Paa].
    destruct (IH (pmul base base) (pmul acc (pmul base base)) (Nat.div2 e) Pbb Paa) as [PV SV]; [lia|lia|]. split; [exact PV|].
    eapply sp_eq; [eapply sp_bind; [now apply Hclone|]; eapply sp_bind; [exact Sb|]; eapply sp_bind; [eapply sp_bind; [now apply Hclone|exact Sa]|exact SV]|reflexivity|lia].
  - destruct (IH (pmul base base) acc (Nat.div2 e) Pbb Pa) as [PV SV]; [lia|lia|]. split; [exact PV|].
    eapply sp_eq; [eapply sp_bind; [now apply Hclone|]; eapply sp_bind; [exact Sb|]; eapply sp_bind; [apply sp_ret|exact SV]|reflexivity|lia].
Qed.
Lemma sp_loop1 fuel : forall base e, P base -> 1 <= e -> e <= fuel ->
  exists k, P (fst (ppow_loop1 pmul fuel base e)) /\ spends (pow_loop1 mul clone fuel base e) (ppow_loop1 pmul fuel base e) (k * (km + kc)) /\
    1 <= snd (ppow_loop1 pmul fuel base e) <= e /\ Nat.odd (snd (ppow_loop1 pmul fuel base e)) = true /\
    Nat.log2 e = k + Nat.log2 (snd (ppow_loop1 pmul fuel base e)) /\ ones (snd (ppow_loop1 pmul fuel base e)) = ones e.
Proof using Hmul Hclone.
  induction fuel as [|fuel IH]; intros base e Pb He Hf; [lia|]. cbn [pow_loop1 ppow_loop1].
  destruct (Nat.even e) eqn:Ev.
  - assert (2 <= e) by (destruct e as [|[|e]]; [lia|discriminate|lia]). pose proof (div2_lt e H) as D. destruct (Hmul base base Pb Pb) as [Sb Pbb].
    destruct (IH (pmul base base) (Nat.div2 e) Pbb) as (k & H1 & H2 & H3 & H4 & H5 & H6); [lia|lia|].
    exists (Datatypes.S k). split; [exact H1|]. split; [|split; [lia|split; [exact H4|split]]].
    + eapply sp_eq; [eapply sp_bind; [now apply Hclone|]; eapply sp_bind; [exact Sb|exact H2]|reflexivity|lia].
    + rewrite (log2_div2 e H). lia.
    + rewrite (ones_div2 e). unfold Nat.odd. rewrite Ev. cbn [negb]. lia.
  - exists 0. cbn [fst snd]. split; [exact Pb|]. split; [apply sp_ret|]. split; [lia|]. unfold Nat.odd. rewrite Ev. auto.
Qed.
Lemma sp_num_pow one base e : P base -> 1 <= e ->
  spends (num_pow mul clone (ret one) base e) (pnum_pow pmul one base e)
    ((Nat.log2 e + ones e - 1) * (km + kc) + (if ones e =? 1 then 0 else kc)).
Proof using Hmul Hclone.
  intros Pb He. unfold num_pow, pnum_pow. destruct (Nat.eqb_spec e 0); [lia|].
  destruct (sp_loop1 e base e Pb He (le_n e)) as (k & H1 & H2 & H3 & H4 & H5 & H6).
  destruct (ppow_loop1 pmul e base e) as [b e']. cbn [fst snd] in *.
  pose proof (ones_div2 e') as O. rewrite H4 in O. pose proof (ones_ge e He).
  destruct (Nat.eqb_spec e' 1) as [->|Hne].
  - change (ones 1) with 1 in *. rewrite <- H6. cbn [Nat.eqb]. change (Nat.log2 1) with 0 in H5.
    eapply sp_eq; [eapply sp_bind; [exact H2|]; cbn; apply sp_ret|reflexivity|]. replace (Nat.log2 e + 1 - 1) with k by lia. cbv [Nat.eqb]. lia.
  - assert (2 <= e') by lia. pose proof (div2_lt e' H0) as D. pose proof (ones_ge (Nat.div2 e') ltac:(lia)).
    destruct (Nat.eqb_spec (ones e) 1); [lia|].
    destruct (sp_loop2 e' b b e' H1 H1) as [_ S2]; [lia|lia|].
    eapply sp_eq; [eapply sp_bind; [exact H2|]; cbn beta iota|reflexivity|].
    + destruct (Nat.eqb_spec e' 1) as [|_]; [contradiction|]. eapply sp_bind; [now apply Hclone|exact S2].
    + replace (Nat.log2 e + ones e - 1) with (k + (Nat.log2 e' + ones (Nat.div2 e'))) by lia. lia.
Qed.
End Pow.
