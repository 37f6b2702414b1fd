(** * BlockProofs.v - lemmas for C88: sums over blocks, and the element operations of blocks. *)
From Coq Require Import List Arith Bool Lia.
From Verif Require Import Rust Iter Elem VectorM MatIterM MatrixM ArithM OpsM SpecCommon SpecAlg SpecRel SpecBlock BlockM.
From Verif Require Import IterProofs OwnProofs ChunkProofs VecProofs MatProofs AccProofs Sim Algebra PropsAlg RelProofs RelLib RelMat.
Import ListNotations.
Local Opaque mmul_vv mmul_vr mmul_rv mmul_rr mmulv mzip_vv mscale mneg vzip_vv vscale vdot vsum msum mtransposed mpow vzero.

Section Pure.
Context {T : Type} (A : arith T) (p : nat).
Notation B := (list (list T)).
(** The exact arithmetic of [p] x [p] matrices. *)
Definition barith : arith B :=
  Arith (m_zero A p p) (m_id A p) (m_add A p p) (m_sub A p p) (m_mul A p p p) (m_neg A p p).
Definition bpure {S} : ops S B :=
  Ops (a_zero barith) (a_one barith) (fun x y => ret (a_add barith x y)) (fun x y => ret (a_sub barith x y))
    (fun x y => ret (a_mul barith x y)) (fun _ _ => panic) (fun x => ret (a_neg barith x)) (fun _ => false) ret.
Lemma bpure_exact S : exact (S := S) bpure barith.
Proof. repeat split. Qed.

Lemma nth_block l n (m : list (list B)) i j d0 d1 : rect l n m -> i < l -> j < n ->
  nth j (nth i m []) d0 = nth j (nth i m []) d1.
Proof.
  intros [L F] Hi Hj. apply nth_indep. rewrite Forall_forall in F. rewrite (F (nth i m [])); [exact Hj|]. apply nth_In. lia.
Qed.
Lemma div_lt i l : i < l * p -> i / p < l.
Proof. intros H. apply Nat.div_lt_upper_bound; [|lia]. destruct p; lia. Qed.
Lemma mod_lt i l : i < l * p -> i mod p < p.
Proof. intros H. apply Nat.mod_upper_bound. destruct p; lia. Qed.
Lemma flat_at l n m i j : rect l n m -> i < l * p -> j < n * p ->
  at2 A (flat A l n p m) i j = at2 A (at2 barith m (i / p) (j / p)) (i mod p) (j mod p).
Proof.
  intros R Hi Hj. unfold flat. rewrite at2_mat by assumption. f_equal. unfold at2.
  apply (nth_block l n); auto using div_lt.
Qed.
Lemma flat_rect l n m : rect (l * p) (n * p) (flat A l n p m).
Proof. apply mat_rect. Qed.
Lemma flat_mat l n f : flat A l n p (mat l n f) =
  mat (l * p) (n * p) (fun i j => at2 A (f (i / p) (j / p)) (i mod p) (j mod p)).
Proof.
  unfold flat. apply mat_ext'. intros i j Hi Hj. f_equal.
  rewrite (nth_block l n _ _ _ _ (a_zero barith)); auto using div_lt, mat_rect.
  change (at2 barith (mat l n f) (i / p) (j / p) = f (i / p) (j / p)). apply at2_mat; auto using div_lt.
Qed.

Lemma flat_add l n a b : rect l n a -> rect l n b ->
  flat A l n p (m_add barith l n a b) = m_add A (l * p) (n * p) (flat A l n p a) (flat A l n p b).
Proof.
  intros Ra Rb. unfold m_add at 1. rewrite flat_mat. apply mat_ext'. intros i j Hi Hj. rewrite !flat_at by assumption.
  cbn [barith a_add]. unfold m_add. rewrite at2_mat by eauto using mod_lt. reflexivity.
Qed.
Lemma flat_sub l n a b : rect l n a -> rect l n b ->
  flat A l n p (m_sub barith l n a b) = m_sub A (l * p) (n * p) (flat A l n p a) (flat A l n p b).
Proof.
  intros Ra Rb. unfold m_sub at 1. rewrite flat_mat. apply mat_ext'. intros i j Hi Hj. rewrite !flat_at by assumption.
  cbn [barith a_sub]. unfold m_sub. rewrite at2_mat by eauto using mod_lt. reflexivity.
Qed.
Lemma flat_neg l n a : rect l n a ->
  flat A l n p (m_neg barith l n a) = m_neg A (l * p) (n * p) (flat A l n p a).
Proof.
  intros Ra. unfold m_neg at 1. rewrite flat_mat. apply mat_ext'. intros i j Hi Hj. rewrite !flat_at by assumption.
  cbn [barith a_neg]. unfold m_neg. rewrite at2_mat by eauto using mod_lt. reflexivity.
Qed.
Lemma flat_zero l n : flat A l n p (m_zero barith l n) = m_zero A (l * p) (n * p).
Proof.
  unfold m_zero at 1. rewrite flat_mat. apply mat_ext'. intros i j Hi Hj. cbn [barith a_zero].
  unfold m_zero. rewrite at2_mat by eauto using mod_lt. reflexivity.
Qed.
Lemma eqb_div_mod i j : 0 < p -> ((i / p =? j / p) && (i mod p =? j mod p))%bool = (i =? j).
Proof.
  intros Hp. pose proof (Nat.div_mod i p ltac:(lia)) as Ei. pose proof (Nat.div_mod j p ltac:(lia)) as Ej.
  destruct (Nat.eqb_spec i j) as [->|N]; [now rewrite !Nat.eqb_refl|].
  destruct (Nat.eqb_spec (i / p) (j / p)) as [E1|]; cbn; [|reflexivity].
  destruct (Nat.eqb_spec (i mod p) (j mod p)) as [E2|]; [|reflexivity]. rewrite E1, E2 in Ei. lia.
Qed.
Lemma flat_id n : flat A n n p (m_id barith n) = m_id A (n * p).
Proof.
  unfold m_id at 1. rewrite flat_mat. apply mat_ext'. intros i j Hi Hj.
  assert (Hp : 0 < p) by (destruct p; lia). rewrite <- (eqb_div_mod i j) by exact Hp.
  destruct (i / p =? j / p); cbn [barith a_one a_zero andb].
  - unfold m_id. rewrite at2_mat by eauto using mod_lt. reflexivity.
  - unfold m_zero. rewrite at2_mat by eauto using mod_lt. reflexivity.
Qed.
Lemma flat_tr l n m : rect l n m ->
  flat A n l p (mat n l (fun i j => m_tr A p p (at2 barith m j i))) = m_tr A (l * p) (n * p) (flat A l n p m).
Proof.
  intros R. rewrite flat_mat. apply mat_ext'. intros i j Hi Hj. rewrite flat_at by assumption.
  unfold m_tr. now rewrite at2_mat by eauto using mod_lt.
Qed.

(** ** Sums over blocks *)
Section Laws.
Hypothesis L : semiring A.
Lemma at2_sum n (f : nat -> B) x y : x < p -> y < p ->
  at2 A (sum barith n f) x y = sum A n (fun k => at2 A (f k) x y).
Proof.
  intros Hx Hy. induction n as [|n IH].
  - change (at2 A (m_zero A p p) x y = a_zero A). unfold m_zero. now rewrite at2_mat.
  - rewrite !sum_S. cbn [barith a_add]. unfold m_add. rewrite at2_mat by assumption. now rewrite IH.
Qed.
Lemma add_0_r x : a_add A x (a_zero A) = x.
Proof. rewrite (sr_add_comm _ L). apply L. Qed.
Lemma sum_add_n n k f : sum A (n + k) f = a_add A (sum A n f) (sum A k (fun t => f (n + t))).
Proof.
  induction k as [|k IH].
  - rewrite Nat.add_0_r. cbn. now rewrite add_0_r.
  - rewrite Nat.add_succ_r, !sum_S, IH. symmetry. apply L.
Qed.
Lemma sum_blocks n f : sum A (n * p) f = sum A n (fun k => sum A p (fun t => f (k * p + t))).
Proof.
  induction n as [|n IH]; [reflexivity|]. cbn [Nat.mul]. rewrite (Nat.add_comm p), sum_add_n, sum_S, IH. reflexivity.
Qed.
Lemma div_in k t : t < p -> (k * p + t) / p = k.
Proof. intros H. rewrite Nat.add_comm, Nat.div_add by lia. now rewrite Nat.div_small by exact H. Qed.
Lemma mod_in k t : t < p -> (k * p + t) mod p = t.
Proof. intros H. rewrite Nat.add_comm, Nat.mod_add by lia. now apply Nat.mod_small. Qed.
Lemma in_lt n k t : k < n -> t < p -> k * p + t < n * p.
Proof. intros. nia. Qed.
Lemma flat_mul l n r a b : rect l n a -> rect n r b ->
  flat A l r p (m_mul barith l n r a b) = m_mul A (l * p) (n * p) (r * p) (flat A l n p a) (flat A n r p b).
Proof.
  intros Ra Rb. unfold m_mul at 1. rewrite flat_mat. apply mat_ext'. intros i j Hi Hj.
  rewrite at2_sum by eauto using mod_lt. rewrite sum_blocks. apply sum_ext. intros k Hk.
  cbn [barith a_mul]. unfold m_mul. rewrite at2_mat by eauto using mod_lt. apply sum_ext. intros t Ht.
  rewrite !flat_at by auto using in_lt. now rewrite div_in, mod_in.
Qed.
Lemma flat_scale l n m b : rect l n m ->
  flat A l n p (m_scale barith l n m b) = m_mul A (l * p) (n * p) (n * p) (flat A l n p m) (flat_diag A n p b).
Proof.
  intros R. unfold m_scale. rewrite flat_mat. apply mat_ext'. intros i j Hi Hj.
  cbn [barith a_mul]. unfold m_mul. rewrite at2_mat by eauto using mod_lt. rewrite sum_blocks.
  rewrite (sum_ext A n _ (fun k => if (j / p =? k) then sum A p (fun t => a_mul A (at2 A (at2 barith m (i / p) k) (i mod p) t) (at2 A b t (j mod p))) else a_zero A)).
  - rewrite sum_delta; [reflexivity|exact L|now apply div_lt].
  - intros k Hk. destruct (Nat.eqb_spec (j / p) k) as [E|N].
    + apply sum_ext. intros t Ht. rewrite flat_at by auto using in_lt. unfold flat_diag. rewrite at2_mat by auto using in_lt.
      rewrite div_in, mod_in by exact Ht. rewrite E, Nat.eqb_refl. reflexivity.
    + rewrite (sum_ext A p _ (fun _ => a_zero A)); [apply sum_zero, L|]. intros t Ht. unfold flat_diag.
      rewrite at2_mat by auto using in_lt. rewrite div_in by exact Ht. destruct (Nat.eqb_spec k (j / p)); [congruence|]. apply L.
Qed.
End Laws.
Lemma flat_vec_at n v f : length v = n -> (forall k, k < n -> nth k v [] = f k) ->
  flat_vec A n p v = flat A n 1 p (mat n 1 (fun i _ => f i)).
Proof.
  intros Hl Hf. unfold flat_vec. f_equal. unfold mat. cbn [seq map].
  apply (nth_ext _ _ ([[]] : list B) [[]]); rewrite !map_length, ?seq_length; [exact Hl|].
  intros k Hk. rewrite (map_nth (fun b : B => [b]) v [] k).
  rewrite (nth_indep _ [[]] [f 0]) by (rewrite map_length, seq_length; lia).
  rewrite (map_nth (fun i => [f i]) (seq 0 n) 0 k), seq_nth by lia. now rewrite Hf by lia.
Qed.
End Pure.

(** ** The element operations of blocks behave like exact arithmetic on [p] x [p] matrices *)
Section Alike.
Context {S T : Type} (c : cfg) (d : ety S T) (o : ops S T) (A : arith T) (p : nat).
Hypothesis E : exact o A.
Hypothesis Hp : p < W c.
Notation B := (list (list T)).
Definition bsame (x y : B) : Prop := x = y /\ rect p p x.
Lemma bety_alike : ety_alike (S1 := S) (S2 := S) eq bsame (block_ety d) (block_ety d).
Proof. split; [reflexivity|]. intros x y s1 s2 [-> _] ->. reflexivity. Qed.
Lemma alike_run {X Y} (R : X -> Y -> Prop) (m : M S X) (m' : M S Y) v s :
  alike eq R m m' -> m' s = (Ok v, s) -> exists x, m s = (Ok x, s) /\ R x v.
Proof.
  intros H H'. specialize (H s s eq_refl). rewrite H' in H. destruct (m s) as [[x| | |] s1]; cbn in H; destruct H as [H1 ->]; try contradiction.
  eauto.
Qed.
Lemma run_alike {X Y} (R : X -> Y -> Prop) (m : M S X) (v : Y) : (forall s, exists x, m s = (Ok x, s) /\ R x v) -> alike eq R m (ret v).
Proof. intros H s1 s2 <-. destruct (H s1) as (x & -> & Hx). cbn. now split. Qed.
Lemma mat_bsame m m' : mat_rel bsame m m' -> m = m'.
Proof.
  intros H. induction H as [|r r' m m' Hr Hm IH]; [reflexivity|]. f_equal; [|exact IH]. clear -Hr.
  induction Hr as [|x x' r r' [-> _] Hr IH]; [reflexivity|]. now f_equal.
Qed.
Lemma vec_bsame v v' : vec_rel bsame v v' -> v = v'.
Proof. intros Hr. induction Hr as [|x x' r r' [-> _] Hr IH]; [reflexivity|]. now f_equal. Qed.
Lemma bsame_mat m : Forall (Forall (rect p p)) m -> mat_rel bsame m m.
Proof.
  intros H. induction H as [|r m Hr Hm IH]; constructor; [|exact IH]. clear -Hr.
  induction Hr; constructor; auto. split; auto.
Qed.
Lemma bsame_vec v : Forall (rect p p) v -> vec_rel bsame v v.
Proof. intros Hr. induction Hr; constructor; auto. split; auto. Qed.
Lemma mat_bsame_rect m m' : mat_rel bsame m m' -> Forall (Forall (rect p p)) m.
Proof.
  intros H. induction H as [|r r' m m' Hr Hm IH]; constructor; [|exact IH]. clear -Hr.
  induction Hr as [|x x' r r' [_ Hx] Hr IH]; constructor; auto.
Qed.
Lemma vec_bsame_rect v v' : vec_rel bsame v v' -> Forall (rect p p) v.
Proof. intros Hr. induction Hr as [|x x' r r' [_ Hx] Hr IH]; constructor; auto. Qed.

Definition product (mul : B -> B -> M S B) : Prop := forall a b s, rect p p a -> rect p p b -> mul a b s = (Ok (m_mul A p p p a b), s).
Lemma product_vv : product (mmul_vv c d o p p p).
Proof. intros a b s Ha Hb. apply mulm; auto. apply E. Qed.
Lemma product_vr : product (mmul_vr c d o p p p).
Proof.
  intros a b s Ha Hb. destruct (C38_forms_agree S T c d o p p p a b s) as [-> _]; auto; [apply E|]. now apply product_vv.
Qed.
Lemma zero_value : repeat (repeat (o_zero o) p) p = m_zero A p p.
Proof.
  rewrite (ex_zero _ _ (ex_semi _ _ E)). unfold m_zero, mat.
  assert (G : forall X (x : X) n k, repeat x n = map (fun _ => x) (seq k n)) by (intros X x n; induction n; intros k; cbn; congruence).
  rewrite (G _ (a_zero A) p 0). apply G.
Qed.
Lemma one_value : map (fun i => map (fun j => if i =? j then o_one o else o_zero o) (seq 0 p)) (seq 0 p) = m_id A p.
Proof. rewrite (ex_zero _ _ (ex_semi _ _ E)), (ex_one _ _ (ex_semi _ _ E)). reflexivity. Qed.
Lemma subm a b s : rect p p a -> rect p p b -> mzip_vv c d d d p p (o_sub o) a b s = (Ok (m_sub A p p a b), s).
Proof. intros. apply sim_eqm. apply sim_mzip_vv; auto using Forall2_eq2. apply (exact_sim o A E). Qed.
Lemma negm a s : rect p p a -> mneg c d d p p (o_neg o) a s = (Ok (m_neg A p p a), s).
Proof. intros. apply sim_eqm. apply sim_mneg; auto using Forall2_eq2. apply (exact_sim o A E). Qed.

Lemma block_alike mul : product mul -> ring_alike (S1 := S) (S2 := S) eq bsame (block_ops c d o p mul) (bpure A p).
Proof.
  intros Hmul. pose proof (ex_semi _ _ E) as E1. split.
  - cbn. rewrite zero_value. split; [reflexivity|apply mat_rect].
  - cbn. rewrite one_value. split; [reflexivity|apply mat_rect].
  - intros x y u v [<- Hx] [<- Hu]. apply run_alike. intros s. eexists. split; [apply (addm c d o A E1); auto|]. split; [reflexivity|apply mat_rect].
  - intros x y u v [<- Hx] [<- Hu]. apply run_alike. intros s. eexists. split; [apply subm; auto|]. split; [reflexivity|apply mat_rect].
  - intros x y u v [<- Hx] [<- Hu]. apply run_alike. intros s. eexists. split; [apply Hmul; auto|]. split; [reflexivity|apply mat_rect].
  - intros x y [<- Hx]. apply run_alike. intros s. eexists. split; [apply negm; auto|]. split; [reflexivity|apply mat_rect].
  - intros x y [<- Hx]. apply run_alike. intros s. eexists. split; [apply mclone_id; [exact Hx|apply E1]|]. now split.
Qed.
End Alike.
