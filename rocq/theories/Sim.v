(** * Sim.v - simulation of the model by exact arithmetic.

    [sim pa R m x]: the computation [m] returns a value related by [R] to [x]
    without changing the world, or (only if [pa]) panics. *)
From Coq Require Import List Arith Bool Lia.
From Verif Require Import Rust Iter Elem VectorM MatIterM MatrixM ArithM OpsM SpecCommon SpecAlg.
From Verif Require Import IterProofs OwnProofs ChunkProofs VecProofs MatProofs AccProofs.
Import ListNotations.

Definition sim {S A B} (pa : bool) (R : A -> B -> Prop) (m : M S A) (x : B) : Prop :=
  forall s, (exists a, m s = (Ok a, s) /\ R a x) \/ (pa = true /\ exists s', m s = (Panic, s')).

Section Sim.
Context {S : Type}.
Variable pa : bool.

Lemma sim_ret {A B} (R : A -> B -> Prop) a x : R a x -> sim (S:=S) pa R (ret a) x.
Proof. intros H s. left. exists a. split; [reflexivity|exact H]. Qed.
Lemma sim_bind {A B A' B'} (R : A -> B -> Prop) (R' : A' -> B' -> Prop) (m : M S A) k x y :
  sim pa R m x -> (forall a, R a x -> sim pa R' (k a) y) -> sim pa R' (bind m k) y.
Proof.
  intros H1 H2 s. unfold bind. destruct (H1 s) as [(a & E & Ha)|(P & s' & E)]; rewrite E.
  - apply H2. exact Ha.
  - right. split; [exact P|]. eexists. reflexivity.
Qed.
Lemma sim_ext {A B} (R : A -> B -> Prop) (m m' : M S A) x y : (forall s, m s = m' s) -> x = y -> sim pa R m' y -> sim pa R m x.
Proof. intros E <- H s. rewrite E. apply H. Qed.
Lemma sim_weaken {A B} (R R' : A -> B -> Prop) (m : M S A) x : (forall a, R a x -> R' a x) -> sim pa R m x -> sim pa R' m x.
Proof. intros E H s. destruct (H s) as [(a & E1 & Ha)|P]; [left; eauto|right; exact P]. Qed.
Lemma sim_faithful {A B} (R : A -> B -> Prop) (cl : A -> M S A) a x : faithful cl -> R a x -> sim pa R (cl a) x.
Proof. intros F H s. left. exists a. split; [apply F|exact H]. Qed.

Lemma sim_in_order_unwind {A B A' B'} (R : B -> B' -> Prop) uw (f : A -> M S B) (g : A' -> B') l l' :
  Forall2 (fun a b => sim pa R (f a) (g b)) l l' ->
  sim pa (Forall2 R) (fun s => in_order_unwind uw f l s) (map g l').
Proof.
  intros H. induction H as [|a b l l' H1 H IH]; intros s; cbn; [left; eexists; split; [reflexivity|constructor]|].
  destruct (H1 s) as [(y & E & Hy)|(P & s' & E)]; rewrite E; [|right; split; [exact P|eexists; reflexivity]].
  destruct (IH s) as [(ys & E2 & Hys)|(P & s' & E2)]; rewrite E2.
  - left. eexists. split; [reflexivity|]. now constructor.
  - right. split; [exact P|]. eexists. reflexivity.
Qed.
Lemma sim_in_order {A B A' B'} (R : B -> B' -> Prop) (f : A -> M S B) (g : A' -> B') l l' :
  Forall2 (fun a b => sim pa R (f a) (g b)) l l' ->
  sim pa (Forall2 R) (fun s => in_order f l s) (map g l').
Proof.
  intros H. eapply sim_ext; [|reflexivity|exact (sim_in_order_unwind R (fun _ s => s) f g l l' H)].
  intros s. symmetry. apply unwind_id.
Qed.
Lemma sim_fold_unwind {A B A' B'} (R : B -> B' -> Prop) (Q : A -> A' -> Prop) uw (f : B -> A -> M S B) (g : B' -> A' -> B') l l' b b' :
  Forall2 Q l l' -> R b b' ->
  (forall a a' x x', Q a a' -> R x x' -> sim pa R (f x a) (g x' a')) ->
  sim pa R (fun s => fold_unwind uw f l b s) (fold_left g l' b').
Proof.
  intros H Hb Hf. revert b b' Hb. induction H as [|a a' l l' H1 H IH]; intros b b' Hb s; cbn.
  - left. exists b. split; [reflexivity|exact Hb].
  - destruct (Hf a a' b b' H1 Hb s) as [(y & E & Hy)|(P & s' & E)]; rewrite E.
    + apply IH. exact Hy.
    + right. split; [exact P|]. eexists. reflexivity.
Qed.
Lemma sim_fold {A B A' B'} (R : B -> B' -> Prop) (Q : A -> A' -> Prop) (f : B -> A -> M S B) (g : B' -> A' -> B') l l' b b' :
  Forall2 Q l l' -> R b b' ->
  (forall a a' x x', Q a a' -> R x x' -> sim pa R (f x a) (g x' a')) ->
  sim pa R (fun s => fold_in_order f l b s) (fold_left g l' b').
Proof.
  intros H Hb Hf. revert b b' Hb. induction H as [|a a' l l' H1 H IH]; intros b b' Hb s; cbn.
  - left. exists b. split; [reflexivity|exact Hb].
  - destruct (Hf a a' b b' H1 Hb s) as [(y & E & Hy)|(P & s' & E)]; rewrite E.
    + apply IH. exact Hy.
    + right. split; [exact P|]. eexists. reflexivity.
Qed.
End Sim.

(** ** Lists and components *)
Lemma Forall2_combine {A B A' B'} (R : A -> A' -> Prop) (Q : B -> B' -> Prop) a a' b b' :
  Forall2 R a a' -> Forall2 Q b b' ->
  Forall2 (fun p q => R (fst p) (fst q) /\ Q (snd p) (snd q)) (combine a b) (combine a' b').
Proof.
  intros H. revert b b'. induction H as [|x x' a a' H1 H IH]; intros b b' Hb; cbn; [constructor|].
  inversion Hb; subst; cbn; [constructor|]. constructor; auto.
Qed.
Lemma Forall2_eq {A} (l : list A) : Forall2 eq l l.
Proof. induction l; constructor; auto. Qed.
Lemma Forall2_eq_inv {A} (l l' : list A) : Forall2 eq l l' -> l = l'.
Proof. induction 1; subst; reflexivity. Qed.
Lemma Forall2_eq2_inv {A} (l l' : list (list A)) : Forall2 (Forall2 eq) l l' -> l = l'.
Proof. induction 1 as [|x y l l' H H1 IH]; [reflexivity|]. apply Forall2_eq_inv in H. now subst. Qed.
Lemma Forall2_eq2 {A} (l : list (list A)) : Forall2 (Forall2 eq) l l.
Proof. induction l; constructor; auto using Forall2_eq. Qed.
Lemma Forall2_with {A B} (P : A -> Prop) (R : A -> B -> Prop) l l' :
  Forall2 R l l' -> Forall P l -> Forall2 (fun a b => R a b /\ P a) l l'.
Proof. induction 1; intros F; inversion F; subst; constructor; auto. Qed.
Lemma Forall2_impl' {A B} (R Q : A -> B -> Prop) l l' : (forall a b, R a b -> Q a b) -> Forall2 R l l' -> Forall2 Q l l'.
Proof. intros H. induction 1; constructor; auto. Qed.
Lemma rect_related {A B} (R : A -> B -> Prop) row col m m' :
  Forall2 (Forall2 R) m m' -> rect row col m -> rect row col m'.
Proof.
  intros H [L F]. split; [rewrite <- L; symmetry; eapply Forall2_length; exact H|].
  clear L. induction H as [|r r' m m' Hr H IH]; [constructor|]. inversion F; subst. constructor; [|now apply IH].
  symmetry. eapply Forall2_length; exact Hr.
Qed.

Section At.
Context {T : Type}.
Variable A : arith T.
Lemma vec_at1 n (v : list T) : length v = n -> vec n (at1 A v) = v.
Proof.
  intros <-. unfold vec, at1. apply (nth_ext _ _ (a_zero A) (a_zero A)); [now rewrite map_length, seq_length|].
  intros i Hi. rewrite map_length, seq_length in Hi.
  rewrite (nth_indep _ _ (nth 0 v (a_zero A))) by (now rewrite map_length, seq_length).
  rewrite (map_nth (fun i => nth i v (a_zero A))). now rewrite seq_nth.
Qed.
Lemma at1_vec n f i : i < n -> at1 A (vec n f) i = f i.
Proof.
  intros Hi. unfold at1, vec. rewrite (nth_indep _ _ (f 0)) by (now rewrite map_length, seq_length).
  rewrite map_nth. now rewrite seq_nth.
Qed.
Lemma vec_length n (f : nat -> T) : length (vec n f) = n.
Proof. unfold vec. now rewrite map_length, seq_length. Qed.
Lemma vec_ext n (f g : nat -> T) : (forall i, i < n -> f i = g i) -> vec n f = vec n g.
Proof. intros H. apply map_ext_in. intros i Hi. apply in_seq in Hi. apply H. lia. Qed.
Lemma mat_rect row col (f : nat -> nat -> T) : rect row col (mat row col f).
Proof.
  unfold mat. split; [now rewrite map_length, seq_length|]. apply Forall_forall. intros r Hr.
  apply in_map_iff in Hr. destruct Hr as (i & <- & _). now rewrite map_length, seq_length.
Qed.
Lemma mat_ext' row col (f g : nat -> nat -> T) : (forall i j, i < row -> j < col -> f i j = g i j) -> mat row col f = mat row col g.
Proof.
  intros H. apply map_ext_in. intros i Hi. apply map_ext_in. intros j Hj. apply in_seq in Hi, Hj. apply H; lia.
Qed.
Lemma at2_mat row col f i j : i < row -> j < col -> at2 A (mat row col f) i j = f i j.
Proof.
  intros Hi Hj. unfold at2, mat. rewrite (nth_indep _ _ (map (fun j => f 0 j) (seq 0 col))) by (now rewrite map_length, seq_length).
  rewrite (map_nth (fun i => map (fun j => f i j) (seq 0 col))). rewrite seq_nth by exact Hi.
  exact (at1_vec col (f i) j Hj).
Qed.
Lemma mat_at2 row col m : rect row col m -> mat row col (at2 A m) = m.
Proof.
  intros [L F]. unfold mat, at2.
  assert (E : forall i, i < row -> map (fun j => nth j (nth i m []) (a_zero A)) (seq 0 col) = nth i m []).
  { intros i Hi. apply vec_at1. rewrite Forall_forall in F. apply F. apply nth_In. lia. }
  rewrite (map_ext_in _ (fun i => nth i m [])) by (intros i Hi; apply in_seq in Hi; apply E; lia).
  clear E F. subst row. apply (nth_ext _ _ [] []); [now rewrite map_length, seq_length|].
  intros i Hi. rewrite map_length, seq_length in Hi.
  rewrite (nth_indep _ _ (nth 0 m [])) by (now rewrite map_length, seq_length).
  rewrite (map_nth (fun i => nth i m [])). now rewrite seq_nth.
Qed.
Lemma at2_entry m i j x : entry m i j = Some x -> at2 A m i j = x.
Proof.
  unfold entry, at2. destruct (nth_error m i) as [r|] eqn:E; [|discriminate]. intros E2.
  rewrite (nth_error_nth m i [] E). now apply nth_error_nth.
Qed.
Lemma at2_row row col (m : list (list T)) i : rect row col m -> i < row -> length (nth i m []) = col.
Proof. intros [L F] Hi. rewrite Forall_forall in F. apply F. apply nth_In. lia. Qed.
Lemma at1_col_of row col m j k : rect row col m -> j < col -> k < row -> at1 A (col_of m j) k = at2 A m k j.
Proof.
  intros R Hj Hk. destruct (entry_some row col m k j R Hk Hj) as (x & Ex).
  rewrite (at2_entry _ _ _ _ Ex). rewrite <- (col_of_nth row col m k j R Hj) in Ex. now apply nth_error_nth.
Qed.

Lemma combine_at n (a b : list T) (op : T -> T -> T) : length a = n -> length b = n ->
  map (fun p => op (fst p) (snd p)) (combine a b) = vec n (fun i => op (at1 A a i) (at1 A b i)).
Proof.
  intros La Lb. rewrite <- (vec_at1 n a La) at 1. rewrite <- (vec_at1 n b Lb) at 1. unfold vec.
  rewrite combine_map, map_map. cbn. rewrite <- (map_map (fun x => (x, x)) (fun p => op (at1 A a (fst p)) (at1 A b (snd p)))).
  assert (E : forall l : list nat, combine l l = map (fun x => (x, x)) l) by (induction l; cbn; congruence).
  now rewrite E.
Qed.
Lemma map_at n (a : list T) (f : T -> T) : length a = n -> map f a = vec n (fun i => f (at1 A a i)).
Proof. intros La. rewrite <- (vec_at1 n a La) at 1. unfold vec. now rewrite map_map. Qed.
Lemma fold_at n (a b : list T) (op : T -> T -> T -> T) z : length a = n -> length b = n ->
  fold_left (fun acc p => op acc (fst p) (snd p)) (combine a b) z
  = fold_left (fun acc k => op acc (at1 A a k) (at1 A b k)) (seq 0 n) z.
Proof.
  intros La Lb. rewrite <- (vec_at1 n a La) at 1. rewrite <- (vec_at1 n b Lb) at 1. unfold vec.
  rewrite combine_map.
  assert (E : forall l : list nat, combine l l = map (fun x => (x, x)) l) by (induction l; cbn; congruence).
  rewrite E, map_map. cbn. generalize (seq 0 n). intros l. revert z. induction l; intros z; cbn; auto.
Qed.
Lemma fold_at1 {B} n (a : list T) (op : B -> T -> B) z : length a = n ->
  fold_left op a z = fold_left (fun acc k => op acc (at1 A a k)) (seq 0 n) z.
Proof.
  intros La. rewrite <- (vec_at1 n a La) at 1. unfold vec. generalize (seq 0 n). intros l. revert z.
  induction l; intros z; cbn; auto.
Qed.
Lemma rows_at {B} row col (m : list (list T)) (f : list T -> B) : rect row col m ->
  map f m = map (fun i => f (vec col (at2 A m i))) (seq 0 row).
Proof. intros R. rewrite <- (mat_at2 row col m R) at 1. unfold mat. now rewrite map_map. Qed.
Lemma combine_at2 row col (a b : list (list T)) (op : T -> T -> T) : rect row col a -> rect row col b ->
  map (fun p => map (fun q => op (fst q) (snd q)) (combine (fst p) (snd p))) (combine a b)
  = mat row col (fun i j => op (at2 A a i j) (at2 A b i j)).
Proof.
  intros Ra Rb. rewrite <- (mat_at2 row col a Ra) at 1. rewrite <- (mat_at2 row col b Rb) at 1. unfold mat at 1 2.
  rewrite combine_map. assert (E : forall l : list nat, combine l l = map (fun x => (x, x)) l) by (induction l; cbn; congruence).
  rewrite E, map_map, map_map. cbn. apply map_ext. intros i. rewrite combine_map, E, !map_map. reflexivity.
Qed.
Lemma map_at2 row col (a : list (list T)) (op : T -> T) : rect row col a ->
  map (map op) a = mat row col (fun i j => op (at2 A a i j)).
Proof. intros Ra. rewrite <- (mat_at2 row col a Ra) at 1. unfold mat. rewrite map_map. apply map_ext. intros i. apply map_map. Qed.
Lemma dot_at n a b : length a = n -> length b = n ->
  fold_left (fun acc p => a_add A acc (a_mul A (fst p) (snd p))) (combine a b) (a_zero A) = v_dot A n a b.
Proof. intros. now rewrite (fold_at n a b (fun acc x y => a_add A acc (a_mul A x y))). Qed.
Lemma sum_ext n (f g : nat -> T) : (forall k, k < n -> f k = g k) -> sum A n f = sum A n g.
Proof.
  intros H. unfold sum. assert (G : forall l z, (forall k, In k l -> f k = g k) ->
    fold_left (fun acc k => a_add A acc (f k)) l z = fold_left (fun acc k => a_add A acc (g k)) l z).
  { induction l as [|k l IH]; intros z E; cbn; [reflexivity|]. rewrite E by now left. apply IH. intros; apply E. now right. }
  apply G. intros k Hk. apply in_seq in Hk. apply H. lia.
Qed.
Lemma mul_at l n r a b : rect l n a -> rect n r b ->
  map (fun ra => map (fun j => fold_left (fun acc p => a_add A acc (a_mul A (fst p) (snd p))) (combine ra (col_of b j)) (a_zero A)) (seq 0 r)) a
  = m_mul A l n r a b.
Proof.
  intros Ra Rb. rewrite (rows_at l n a _ Ra). apply map_ext_in. intros i Hi. apply in_seq in Hi.
  apply map_ext_in. intros j Hj. apply in_seq in Hj.
  rewrite (dot_at n); [|apply vec_length|apply (col_of_length n r b j Rb); lia].
  apply sum_ext. intros k Hk. rewrite at1_vec by exact Hk. now rewrite (at1_col_of n r) by (auto; lia).
Qed.
Lemma mulv_at row col a v : rect row col a -> length v = col ->
  map (fun ra => fold_left (fun acc p => a_add A acc (a_mul A (fst p) (snd p))) (combine ra v) (a_zero A)) a
  = m_mulv A row col a v.
Proof.
  intros Ra Lv. rewrite (rows_at row col a _ Ra). apply map_ext_in. intros i Hi. apply in_seq in Hi.
  rewrite (dot_at col) by (rewrite ?vec_length; auto).
  apply sum_ext. intros k Hk. now rewrite at1_vec by exact Hk.
Qed.
Lemma msum_at row col a : rect row col a ->
  fold_left (fun acc r => a_add A acc (fold_left (a_add A) r (a_zero A))) a (a_zero A) = m_sum A row col a.
Proof.
  intros Ra. rewrite <- (mat_at2 row col a Ra) at 1. unfold mat, m_sum, sum at 1.
  assert (G : forall l z, fold_left (fun acc r => a_add A acc (fold_left (a_add A) r (a_zero A)))
      (map (fun i => map (fun j => at2 A a i j) (seq 0 col)) l) z
    = fold_left (fun acc i => a_add A acc (sum A col (fun j => at2 A a i j))) l z).
  { induction l as [|i l IH]; intros z; cbn; [reflexivity|]. rewrite IH. f_equal. f_equal.
    unfold sum. generalize (a_zero A) (seq 0 col). clear. intros z l. generalize (at2 A a i). intros f. revert z. induction l; intros z; cbn; auto. }
  apply G.
Qed.
End At.

(** ** Simulation of each operation *)
(** The operators of [o] are simulated by those of [A]. *)
Record sim_semi {S T U} (pa : bool) (R : T -> U -> Prop) (o : ops S T) (A : arith U) : Prop := SimSemi {
  sm_zero : R (o_zero o) (a_zero A);
  sm_one : R (o_one o) (a_one A);
  sm_add : forall x y x' y', R x x' -> R y y' -> sim pa R (o_add o x y) (a_add A x' y');
  sm_mul : forall x y x' y', R x x' -> R y y' -> sim pa R (o_mul o x y) (a_mul A x' y');
  sm_clone : faithful (o_clone o) }.
Record sim_ring {S T U} (pa : bool) (R : T -> U -> Prop) (o : ops S T) (A : arith U) : Prop := SimRing {
  sm_semi : sim_semi pa R o A;
  sm_sub : forall x y x' y', R x x' -> R y y' -> sim pa R (o_sub o x y) (a_sub A x' y');
  sm_neg : forall x x', R x x' -> sim pa R (o_neg o x) (a_neg A x') }.

Section Ops.
Context {S T U : Type}.
Variable pa : bool.
Variable R : T -> U -> Prop.
Variable c : cfg.
Variable d : ety S T.
Variable A : arith U.
Notation RV := (Forall2 R).
Notation RM := (Forall2 (Forall2 R)).

Section Zip.
Variable op : T -> T -> M S T.
Variable g : U -> U -> U.
Hypothesis Hop : forall x y x' y', R x x' -> R y y' -> sim pa R (op x y) (g x' y').

Lemma sim_zip uw a a' b b' n : RV a a' -> RV b b' -> length a = n -> length b = n ->
  sim pa RV (fun s => in_order_unwind uw (op2 op) (combine a b) s) (vec n (fun i => g (at1 A a' i) (at1 A b' i))).
Proof.
  intros Ha Hb La Lb. rewrite <- combine_at.
  - apply (sim_in_order_unwind pa R uw (op2 op) (fun p => g (fst p) (snd p))).
    eapply Forall2_impl'; [|exact (Forall2_combine _ _ _ _ _ _ Ha Hb)]. intros p q [H1 H2]. now apply Hop.
  - rewrite <- La. symmetry. eapply Forall2_length; eauto.
  - rewrite <- Lb. symmetry. eapply Forall2_length; eauto.
Qed.
Lemma sim_vzip_vv n a a' b b' : RV a a' -> RV b b' -> length a = n -> length b = n -> n < W c ->
  sim pa RV (vzip_vv c d d d n op a b) (vec n (fun i => g (at1 A a' i) (at1 A b' i))).
Proof. intros. eapply sim_ext; [intros s; now apply vzip_vv_spec|reflexivity|now apply sim_zip]. Qed.
Lemma sim_vzip_vr n a a' b b' : RV a a' -> RV b b' -> length a = n -> length b = n -> n < W c ->
  sim pa RV (vzip_vr c d d n op a b) (vec n (fun i => g (at1 A a' i) (at1 A b' i))).
Proof. intros. eapply sim_ext; [intros s; now apply vzip_vr_spec|reflexivity|now apply sim_zip]. Qed.
Lemma sim_vzip_rv n a a' b b' : RV a a' -> RV b b' -> length a = n -> length b = n -> n < W c ->
  sim pa RV (vzip_rv c d d n op a b) (vec n (fun i => g (at1 A a' i) (at1 A b' i))).
Proof. intros. eapply sim_ext; [intros s; now apply vzip_rv_spec|reflexivity|now apply sim_zip]. Qed.
Lemma sim_vzip_rr n a a' b b' : RV a a' -> RV b b' -> length a = n -> length b = n ->
  sim pa RV (vzip_rr c d n op a b) (vec n (fun i => g (at1 A a' i) (at1 A b' i))).
Proof.
  intros. eapply sim_ext; [intros s; rewrite vzip_rr_spec by assumption; symmetry; apply unwind_id|reflexivity|now apply sim_zip].
Qed.

Lemma sim_mzip uo ui a a' b b' row col : RM a a' -> RM b b' -> rect row col a -> rect row col b ->
  sim pa RM (fun s => in_order_unwind uo (op2 (fun ra rb => in_order_unwind ui (op2 op) (combine ra rb))) (combine a b) s)
    (mat row col (fun i j => g (at2 A a' i j) (at2 A b' i j))).
Proof.
  intros Ha Hb Ra Rb. rewrite <- (combine_at2 A row col a' b' g) by (eapply rect_related; eauto).
  apply (sim_in_order_unwind pa RV uo (op2 (fun ra rb => in_order_unwind ui (op2 op) (combine ra rb)))
    (fun p => map (fun q => g (fst q) (snd q)) (combine (fst p) (snd p)))).
  eapply Forall2_impl'; [|exact (Forall2_combine _ _ _ _ _ _ Ha Hb)]. intros p q [H1 H2].
  apply (sim_in_order_unwind pa R ui (op2 op) (fun p => g (fst p) (snd p))).
  eapply Forall2_impl'; [|exact (Forall2_combine _ _ _ _ _ _ H1 H2)]. intros p' q' [H1' H2']. now apply Hop.
Qed.
Lemma sim_mzip_vv row col a a' b b' : RM a a' -> RM b b' -> rect row col a -> rect row col b -> row < W c -> col < W c ->
  sim pa RM (mzip_vv c d d d row col op a b) (mat row col (fun i j => g (at2 A a' i j) (at2 A b' i j))).
Proof. intros. eapply sim_ext; [intros s; now apply mzip_vv_spec|reflexivity|now apply sim_mzip]. Qed.
Lemma sim_mzip_vr row col a a' b b' : RM a a' -> RM b b' -> rect row col a -> rect row col b -> row < W c -> col < W c ->
  sim pa RM (mzip_vr c d d row col op a b) (mat row col (fun i j => g (at2 A a' i j) (at2 A b' i j))).
Proof. intros. eapply sim_ext; [intros s; now apply mzip_vr_spec|reflexivity|now apply sim_mzip]. Qed.
Lemma sim_mzip_rv row col a a' b b' : RM a a' -> RM b b' -> rect row col a -> rect row col b -> row < W c -> col < W c ->
  sim pa RM (mzip_rv c d d row col op a b) (mat row col (fun i j => g (at2 A a' i j) (at2 A b' i j))).
Proof. intros. eapply sim_ext; [intros s; now apply mzip_rv_spec|reflexivity|now apply sim_mzip]. Qed.
Lemma sim_mzip_rr row col a a' b b' : RM a a' -> RM b b' -> rect row col a -> rect row col b ->
  sim pa RM (mzip_rr c d row col op a b) (mat row col (fun i j => g (at2 A a' i j) (at2 A b' i j))).
Proof.
  intros Ha Hb Ra Rb. eapply sim_ext; [|reflexivity|exact (sim_mzip (fun _ s => s) (fun _ s => s) a a' b b' row col Ha Hb Ra Rb)].
  intros s. rewrite mzip_rr_spec by assumption. rewrite unwind_id. apply in_order_ext. intros x s0 _. symmetry. apply unwind_id.
Qed.

(** Scaling. *)
Lemma sim_vscale cl n v v' x x' : faithful cl -> RV v v' -> R x x' -> length v = n -> n < W c ->
  sim pa RV (vscale c d d n op cl v x) (vec n (fun i => g (at1 A v' i) x')).
Proof.
  intros F Hv Hx L HW. eapply sim_ext; [intros s; now apply vscale_spec|reflexivity|].
  rewrite <- (map_at A n v' (fun y => g y x')) by (rewrite <- L; symmetry; eapply Forall2_length; eauto).
  apply (sim_in_order_unwind pa R (drop_all d) (fun e => r <- cl x ;; op e r)).
  eapply Forall2_impl'; [|exact Hv]. intros e e' He. eapply sim_bind; [apply (sim_faithful pa R cl x x' F Hx)|].
  intros. now apply Hop.
Qed.
Lemma sim_mscale cl row col m m' x x' : faithful cl -> RM m m' -> R x x' -> rect row col m -> row < W c -> col < W c ->
  sim pa RM (mscale c d row col op cl m x) (mat row col (fun i j => g (at2 A m' i j) x')).
Proof.
  intros F Hm Hx Rm H1 H2. eapply sim_ext; [intros s; now apply mscale_spec|reflexivity|].
  rewrite <- (map_at2 A row col m' (fun y => g y x')) by (eapply rect_related; eauto).
  apply (sim_in_order_unwind pa RV (drop_all (vec_ety d)) (fun r => x0 <- cl x ;; fun s => in_order_unwind (drop_all d) (fun e => y <- cl x0 ;; op e y) r s)).
  eapply Forall2_impl'; [|exact Hm]. intros r r' Hr. eapply sim_bind; [apply (sim_faithful pa R cl x x' F Hx)|]. intros x0 Hx0.
  apply (sim_in_order_unwind pa R (drop_all d) (fun e => y <- cl x0 ;; op e y)).
  eapply Forall2_impl'; [|exact Hr]. intros e e' He. eapply sim_bind; [apply (sim_faithful pa R cl x0 x' F Hx0)|].
  intros. now apply Hop.
Qed.
Lemma sim_mscale_ref row col m m' x x' : RM m m' -> R x x' -> rect row col m -> row < W c -> col < W c ->
  sim pa RM (mscale_ref c d row col op m x) (mat row col (fun i j => g (at2 A m' i j) x')).
Proof.
  intros Hm Hx Rm H1 H2. eapply sim_ext; [intros s; now apply mscale_ref_spec|reflexivity|].
  rewrite <- (map_at2 A row col m' (fun y => g y x')) by (eapply rect_related; eauto).
  apply (sim_in_order_unwind pa RV (drop_all (vec_ety d)) (fun r s => in_order_unwind (drop_all d) (fun e => op e x) r s)).
  eapply Forall2_impl'; [|exact Hm]. intros r r' Hr.
  apply (sim_in_order_unwind pa R (drop_all d) (fun e => op e x)).
  eapply Forall2_impl'; [|exact Hr]. intros e e' He. now apply Hop.
Qed.
End Zip.

Section Neg.
Variable f : T -> M S T.
Variable g : U -> U.
Hypothesis Hf : forall x x', R x x' -> sim pa R (f x) (g x').
Lemma sim_vneg n v v' : RV v v' -> length v = n -> n < W c ->
  sim pa RV (vneg c d d n f v) (vec n (fun i => g (at1 A v' i))).
Proof.
  intros Hv L HW. eapply sim_ext; [intros s; now apply vneg_spec|reflexivity|].
  rewrite <- (map_at A n v' g) by (rewrite <- L; symmetry; eapply Forall2_length; eauto).
  apply (sim_in_order_unwind pa R (drop_all d) f). eapply Forall2_impl'; [|exact Hv]. auto.
Qed.
Lemma sim_mneg row col m m' : RM m m' -> rect row col m -> row < W c -> col < W c ->
  sim pa RM (mneg c d d row col f m) (mat row col (fun i j => g (at2 A m' i j))).
Proof.
  intros Hm Rm H1 H2. eapply sim_ext; [intros s; now apply mneg_spec|reflexivity|].
  rewrite <- (map_at2 A row col m' g) by (eapply rect_related; eauto).
  apply (sim_in_order_unwind pa RV (drop_all (vec_ety d)) (in_order_unwind (drop_all d) f)).
  eapply Forall2_impl'; [|exact Hm]. intros r r' Hr.
  apply (sim_in_order_unwind pa R (drop_all d) f). eapply Forall2_impl'; [|exact Hr]. auto.
Qed.
End Neg.
End Ops.

Section Semi.
Context {S T U : Type}.
Variable pa : bool.
Variable R : T -> U -> Prop.
Variable c : cfg.
Variable d : ety S T.
Variable o : ops S T.
Variable A : arith U.
Hypothesis H : sim_semi pa R o A.
Notation RV := (Forall2 R).
Notation RM := (Forall2 (Forall2 R)).
Let HC := sm_clone _ _ _ _ H.

Lemma sim_vsum n v v' : RV v v' -> length v = n -> sim pa R (vsum o n v) (v_sum A n v').
Proof.
  intros Hv L. eapply sim_ext; [intros s; now apply vsum_spec| |].
  - unfold v_sum, sum. symmetry. apply (fold_at1 A n v' (a_add A)). rewrite <- L. symmetry. eapply Forall2_length; eauto.
  - apply (sim_fold pa R R); [exact Hv|apply H|]. intros a a' x x' Ha Hx.
    eapply sim_bind; [apply (sim_faithful pa R _ a a' HC Ha)|]. intros. now apply H.
Qed.
Lemma sim_msum row col m m' : RM m m' -> rect row col m -> sim pa R (msum o row col m) (m_sum A row col m').
Proof.
  intros Hm Rm. eapply sim_ext; [intros s; eapply msum_spec; exact Rm|symmetry; apply msum_at; eapply rect_related; eauto|].
  apply (sim_fold pa R RV); [exact Hm|apply H|]. intros r r' x x' Hr Hx.
  eapply sim_bind; [|intros; apply H; [exact Hx|eassumption]].
  apply (sim_fold pa R R); [exact Hr|apply H|]. intros a a' y y' Ha Hy.
  eapply sim_bind; [apply (sim_faithful pa R _ a a' HC Ha)|]. intros. now apply H.
Qed.
Lemma sim_dotm a a' b b' : RV a a' -> RV b b' ->
  sim pa R (dotm o a b) (fold_left (fun acc p => a_add A acc (a_mul A (fst p) (snd p))) (combine a' b') (a_zero A)).
Proof.
  intros Ha Hb. unfold dotm. eapply (sim_fold pa R); [exact (Forall2_combine _ _ _ _ _ _ Ha Hb)|apply H|].
  intros p q x x' [H1 H2] Hx. eapply sim_bind; [apply H; eassumption|]. intros. now apply H.
Qed.
Lemma sim_vdot n a a' b b' : RV a a' -> RV b b' -> length a = n -> length b = n -> sim pa R (vdot o n a b) (v_dot A n a' b').
Proof.
  intros Ha Hb La Lb. eapply sim_ext; [intros s; now apply vdot_spec| |].
  - symmetry. apply dot_at; [rewrite <- La|rewrite <- Lb]; symmetry; eapply Forall2_length; eauto.
  - eapply (sim_fold pa R); [exact (Forall2_combine _ _ _ _ _ _ Ha Hb)|apply H|].
    intros p q x x' [H1 H2] Hx. eapply sim_bind; [|intros; apply H; [exact Hx|eassumption]].
    unfold mul2. eapply sim_bind; [apply (sim_faithful pa R _ _ _ HC H1)|]. intros.
    eapply sim_bind; [apply (sim_faithful pa R _ _ _ HC H2)|]. intros. now apply H.
Qed.

Lemma related_col row col m m' j : RM m m' -> rect row col m -> j < col -> RV (col_of m j) (col_of m' j).
Proof.
  intros Hm [_ F] Hj. induction Hm as [|r r' m m' Hr Hm IH]; cbn; [constructor|]. inversion F; subst.
  assert (E : RV (match nth_error r j with Some x => [x] | None => [] end) (match nth_error r' j with Some x => [x] | None => [] end)).
  { clear -Hr. revert j. induction Hr; intros [|j]; cbn; try constructor; auto. }
  apply Forall2_app; auto.
Qed.
Lemma sim_mul_form l n r a a' b b' : RM a a' -> RM b b' -> rect l n a -> rect n r b ->
  sim pa RM (mul_form o r a b) (m_mul A l n r a' b').
Proof.
  intros Ha Hb Ra Rb. rewrite <- mul_at by (eapply rect_related; eauto). unfold mul_form.
  apply (sim_in_order pa RV (fun r0 => in_order (fun j => dotm o r0 (col_of b j)) (seq 0 r))).
  eapply Forall2_impl'; [|exact Ha]. intros x x' Hx.
  apply (sim_in_order pa R (fun j => dotm o x (col_of b j))).
  assert (G : forall l, (forall j, In j l -> j < r) -> Forall2 (fun j j' => sim pa R (dotm o x (col_of b j))
     (fold_left (fun acc p => a_add A acc (a_mul A (fst p) (snd p))) (combine x' (col_of b' j')) (a_zero A))) l l).
  { induction l0 as [|j l0 IH]; intros Hl; constructor; [|apply IH; intros; apply Hl; now right].
    apply sim_dotm; [exact Hx|]. eapply related_col; eauto. apply Hl. now left. }
  apply G. intros j Hj. apply in_seq in Hj. lia.
Qed.
Section Mul.
Variables (l n r : nat) (a b : list (list T)) (a' b' : list (list U)).
Hypothesis Ha : RM a a'.
Hypothesis Hb : RM b b'.
Hypothesis Ra : rect l n a.
Hypothesis Rb : rect n r b.
Hypothesis Hl : l < W c.
Hypothesis Hn : n < W c.
Hypothesis Hr : r < W c.
Lemma sim_mmul_vv : sim pa RM (mmul_vv c d o l n r a b) (m_mul A l n r a' b').
Proof. eapply sim_ext; [intros s; now apply mmul_vv_spec|reflexivity|now apply sim_mul_form]. Qed.
Lemma sim_mmul_rv : sim pa RM (mmul_rv c d o l n r a b) (m_mul A l n r a' b').
Proof. eapply sim_ext; [intros s; now apply mmul_rv_spec|reflexivity|now apply sim_mul_form]. Qed.
Lemma sim_mmul_vr : sim pa RM (mmul_vr c d o l n r a b) (m_mul A l n r a' b').
Proof. eapply sim_ext; [intros s; now apply mmul_vr_spec|reflexivity|now apply sim_mul_form]. Qed.
Lemma sim_mmul_rr : sim pa RM (mmul_rr c d o l n r a b) (m_mul A l n r a' b').
Proof. eapply sim_ext; [intros s; now apply mmul_rr_spec|reflexivity|now apply sim_mul_form]. Qed.
End Mul.
Lemma sim_mmulv row col m m' v v' : RM m m' -> RV v v' -> rect row col m -> length v = col -> row < W c ->
  sim pa RV (mmulv c d o row col m v) (m_mulv A row col m' v').
Proof.
  intros Hm Hv Rm Lv HW. eapply sim_ext; [intros s; apply mmulv_spec; eauto| |].
  - symmetry. apply mulv_at; [eapply rect_related; eauto|]. rewrite <- Lv. symmetry. eapply Forall2_length; eauto.
  - apply (sim_in_order pa R (fun r => dotm o r v)). eapply Forall2_impl'; [|exact Hm]. intros. now apply sim_dotm.
Qed.
Lemma sim_mmulv_ref row col m m' v v' : RM m m' -> RV v v' -> rect row col m -> length v = col -> row < W c -> col < W c ->
  sim pa RV (mmulv_ref c d o row col m v) (m_mulv A row col m' v').
Proof.
  intros Hm Hv Rm Lv HW HW2. eapply sim_ext; [intros s; apply mmulv_ref_spec; eauto| |].
  - symmetry. apply mulv_at; [eapply rect_related; eauto|]. rewrite <- Lv. symmetry. eapply Forall2_length; eauto.
  - eapply (sim_in_order_unwind pa R _ _ (fun ra => fold_left (fun acc p => a_add A acc (a_mul A (fst p) (snd p))) (combine ra v') (a_zero A))).
    eapply Forall2_impl'; [|exact Hm]. intros r r' Hr.
    eapply (sim_fold_unwind pa R); [exact (Forall2_combine _ _ _ _ _ _ Hr Hv)|apply H|].
    intros p q x x' [H1 H2] Hx. eapply sim_bind; [apply H; eassumption|]. intros. now apply H.
Qed.
Lemma sim_mmul_assign n a a' b b' s : RM a a' -> RM b b' -> rect n n a -> rect n n b -> n < W c ->
  (exists p, mmul_assign c d o n b (a, s) = (Ok tt, (p, s)) /\ RM p (m_mul A n n n a' b')) \/
  (pa = true /\ exists s', mmul_assign c d o n b (a, s) = (Panic, (a, s'))).
Proof.
  intros Ha Hb Ra Rb HW. rewrite mmul_assign_spec by assumption.
  destruct (sim_mul_form n n n a a' b b' Ha Hb Ra Rb s) as [(p & E & Hp)|(P & s' & E)]; rewrite E.
  - left. eauto.
  - right. eauto.
Qed.
Lemma sim_midentity n : sim pa RM (midentity c d o n) (m_id A n).
Proof.
  intros s. left. unfold midentity.
  rewrite (mgenerate_pure _ _ _ _ _ (fun i j => if i =? j then o_one o else o_zero o)).
  2:{ intros i j s0 _ _. now destruct (i =? j). }
  eexists. split; [reflexivity|]. unfold m_id, mat.
  assert (G : forall l k, RM (map (fun i => map ((fun i j => if i =? j then o_one o else o_zero o) i) k) l)
     (map (fun i => map (fun j => if i =? j then a_one A else a_zero A) k) l)).
  { intros l k. induction l as [|i l IH]; cbn; constructor; [|exact IH]. clear IH. induction k as [|j k IH]; cbn; constructor; [|exact IH].
    destruct (i =? j); apply H. }
  apply G.
Qed.
End Semi.

(** ** [num::pow] *)
Fixpoint ppow_loop1 {X} (mul : X -> X -> X) (fuel : nat) (base : X) (e : nat) : X * nat :=
  match fuel with
  | 0 => (base, e)
  | Datatypes.S fuel' => if Nat.even e then ppow_loop1 mul fuel' (mul base base) (Nat.div2 e) else (base, e)
  end.
Fixpoint ppow_loop2 {X} (mul : X -> X -> X) (fuel : nat) (base acc : X) (e : nat) : X :=
  match fuel with
  | 0 => acc
  | Datatypes.S fuel' =>
      if 1 <? e then
        ppow_loop2 mul fuel' (mul base base)
          (if Nat.odd (Nat.div2 e) then mul acc (mul base base) else acc) (Nat.div2 e)
      else acc
  end.
Definition pnum_pow {X} (mul : X -> X -> X) (one base : X) (e : nat) : X :=
  if e =? 0 then one
  else let (b, e') := ppow_loop1 mul e base e in
       if e' =? 1 then b else ppow_loop2 mul e' b b e'.

Lemma div2_lt e : 1 <= e -> Nat.div2 e < e.
Proof. intros. apply Nat.lt_div2. lia. Qed.
Lemma div2_pos e : 1 <= e -> Nat.even e = true -> 1 <= Nat.div2 e.
Proof. destruct e as [|[|e]]; cbn; intros; try lia; discriminate. Qed.
Section NumPow.
Context {S X Y : Type}.
Variable pa : bool.
Variable Q : X -> Y -> Prop.
Variable mul : X -> X -> M S X.
Variable clone : X -> M S X.
Variable one : M S X.
Variable pmul : Y -> Y -> Y.
Variable pone : Y.
Hypothesis Hmul : forall x y x' y', Q x x' -> Q y y' -> sim pa Q (mul x y) (pmul x' y').
Hypothesis Hclone : forall x x', Q x x' -> sim pa Q (clone x) x'.
Hypothesis Hone : sim pa Q one pone.
Lemma sim_pow_loop1 fuel base base' e : 1 <= e -> e <= fuel -> Q base base' ->
  sim pa (fun r r' => Q (fst r) (fst r') /\ snd r = snd r') (pow_loop1 mul clone fuel base e) (ppow_loop1 pmul fuel base' e).
Proof.
  revert base base' e. induction fuel as [|fuel IH]; intros base base' e H1 H2 HQ; [lia|]. cbn.
  destruct (Nat.even e) eqn:E; [|apply sim_ret; now split].
  eapply sim_bind; [apply Hclone; exact HQ|]. intros b Hb. eapply sim_bind; [apply Hmul; eassumption|]. intros b2 Hb2.
  apply IH; [now apply div2_pos|pose proof (div2_lt e H1); lia|exact Hb2].
Qed.
Lemma sim_pow_loop2 fuel base base' acc acc' e : e <= fuel -> Q base base' -> Q acc acc' ->
  sim pa Q (pow_loop2 mul clone fuel base acc e) (ppow_loop2 pmul fuel base' acc' e).
Proof.
  revert base base' acc acc' e. induction fuel as [|fuel IH]; intros base base' acc acc' e H2 HQ HA.
  - assert (e = 0) by lia. subst e. cbn. now apply sim_ret.
  - cbn. destruct (1 <? e) eqn:E; [|now apply sim_ret]. apply Nat.ltb_lt in E.
    eapply sim_bind; [apply Hclone; exact HQ|]. intros b Hb. eapply sim_bind; [apply Hmul; eassumption|]. intros b2 Hb2.
    apply (sim_bind pa Q Q _ _ (if Nat.odd (Nat.div2 e) then pmul acc' (pmul base' base') else acc')).
    + destruct (Nat.odd (Nat.div2 e)); [|now apply sim_ret]. eapply sim_bind; [apply Hclone; exact Hb2|]. intros. now apply Hmul.
    + intros acc2 HA2. apply IH; [|exact Hb2|exact HA2]. assert (Nat.div2 e < e) by (apply div2_lt; lia). lia.
Qed.
Lemma sim_num_pow base base' e : Q base base' -> sim pa Q (num_pow mul clone one base e) (pnum_pow pmul pone base' e).
Proof.
  intros HQ. unfold num_pow, pnum_pow. destruct (e =? 0) eqn:E; [exact Hone|]. apply Nat.eqb_neq in E.
  eapply sim_bind; [apply sim_pow_loop1; [| |exact HQ]; lia|].
  intros [b e1] [Hb He]. destruct (ppow_loop1 pmul e base' e) as [b' e']. cbn in Hb, He. subst e1.
  destruct (e' =? 1); [now apply sim_ret|]. eapply sim_bind; [apply Hclone; exact Hb|]. intros acc HA.
  now apply sim_pow_loop2.
Qed.
End NumPow.

Section SemiPow.
Context {S T U : Type}.
Variable pa : bool.
Variable R : T -> U -> Prop.
Variable c : cfg.
Variable d : ety S T.
Variable o : ops S T.
Variable A : arith U.
Hypothesis H : sim_semi pa R o A.
Notation RM := (Forall2 (Forall2 R)).
Lemma rect_related' row col (m : list (list T)) (m' : list (list U)) : RM m m' -> rect row col m' -> rect row col m.
Proof.
  intros Hm. apply (rect_related (fun b a => R a b)). clear -Hm. induction Hm as [|r r' m m' Hr Hm IH]; constructor; [|exact IH].
  clear -Hr. induction Hr; constructor; auto.
Qed.
Lemma sim_mpow n m m' e : RM m m' -> rect n n m -> n < W c ->
  sim pa RM (mpow c d o n m e) (pnum_pow (m_mul A n n n) (m_id A n) m' e).
Proof.
  intros Hm Rm HW. unfold mpow.
  apply (sim_weaken pa (fun a x => RM a x /\ rect n n a)); [tauto|].
  assert (HC : forall x x', RM x x' /\ rect n n x -> sim pa (fun a x => RM a x /\ rect n n a) (mclone c d (o_clone o) n n x) x').
  { intros x x' [H1 H2] s. left. exists x. split; [|now split]. apply mclone_id; [exact H2|apply H]. }
  eapply sim_bind; [apply HC; split; eassumption|]. intros a Ha. apply sim_num_pow; [|exact HC| |exact Ha].
  - intros x y x' y' [H1 H2] [H3 H4]. eapply sim_weaken; [|apply sim_mmul_vv; eauto].
    intros p Hp. split; [exact Hp|]. eapply rect_related'; [exact Hp|apply mat_rect].
  - eapply sim_weaken; [|apply sim_midentity; exact H]. intros p Hp. split; [exact Hp|]. eapply rect_related'; [exact Hp|apply mat_rect].
Qed.
End SemiPow.

(** ** Determinants of size 1 to 3, cross product *)
Section Ring.
Context {S T U : Type}.
Variable pa : bool.
Variable R : T -> U -> Prop.
Variable c : cfg.
Variable o : ops S T.
Variable A : arith U.
Hypothesis H : sim_ring pa R o A.
Notation RV := (Forall2 R).
Notation RM := (Forall2 (Forall2 R)).
Let HS := sm_semi _ _ _ _ H.
Let HC := sm_clone _ _ _ _ HS.
Lemma sim_idx n m m' i j : RM m m' -> rect n n m -> i < n -> j < n -> sim pa R (idx c o n m i j) (at2 A m' i j).
Proof.
  intros Hm Rm Hi Hj. unfold idx. destruct (entry_some n n m i j Rm Hi Hj) as (x & Ex).
  intros s. left. exists x. unfold bind. rewrite (mstatic_in c n n m i j x s Rm Hi Hj Ex). split; [apply HC|].
  unfold entry in Ex. destruct (nth_error m i) as [r|] eqn:Er; [|discriminate].
  assert (G : forall i r, nth_error m i = Some r -> exists r', nth_error m' i = Some r' /\ RV r r').
  { clear -Hm. induction Hm as [|y y' l l' Hy Hl IH]; intros [|k] r E; cbn in *; try discriminate; eauto. injection E as <-. eauto. }
  destruct (G i r Er) as (r' & Er' & Hr). unfold at2. rewrite (nth_error_nth m' i [] Er').
  clear -Hr Ex. revert j Ex. induction Hr as [|y y' l l' Hy Hl IH]; intros [|k] E; cbn in *; try discriminate.
  - injection E as <-. exact Hy.
  - eapply IH; eauto.
Qed.
Lemma sim_det1 m m' : RM m m' -> rect 1 1 m -> sim pa R (det1 c o m) (det_1 A m').
Proof. intros. apply sim_idx; auto. Qed.
Ltac idx_step := eapply sim_bind; [apply sim_idx; [eassumption|assumption|lia|lia]|intros ? ?].
Lemma sim_det2 m m' : RM m m' -> rect 2 2 m -> sim pa R (det2 c o m) (det_2 A m').
Proof.
  intros Hm Rm. unfold det2, det_2. do 2 idx_step. eapply sim_bind; [apply HS; eassumption|intros ? ?].
  do 2 idx_step. eapply sim_bind; [apply HS; eassumption|intros ? ?]. now apply H.
Qed.
Lemma sim_term3 m m' i j k l p q : RM m m' -> rect 3 3 m -> i < 3 -> j < 3 -> k < 3 -> l < 3 -> p < 3 -> q < 3 ->
  sim pa R (term3 c o m i j k l p q) (a_mul A (a_mul A (at2 A m' i j) (at2 A m' k l)) (at2 A m' p q)).
Proof.
  intros Hm Rm ? ? ? ? ? ?. unfold term3. do 2 idx_step. eapply sim_bind; [apply HS; eassumption|intros ? ?].
  idx_step. now apply HS.
Qed.
Lemma sim_det3 m m' : RM m m' -> rect 3 3 m -> sim pa R (det3 c o m) (det_3 A m').
Proof.
  intros Hm Rm. unfold det3, det_3.
  do 6 (eapply sim_bind; [apply sim_term3; [eassumption|assumption|lia|lia|lia|lia|lia|lia]|intros ? ?];
        try (eapply sim_bind; [first [apply HS; eassumption|apply H; eassumption]|intros ? ?])).
  now apply H.
Qed.
Lemma sim_vidx v v' i : RV v v' -> length v = 3 -> i < 3 -> sim pa R (vidx c o v i) (at1 A v' i).
Proof.
  intros Hv L Hi s. left.
  destruct v as [|x0 [|x1 [|x2 [|]]]]; try discriminate. inversion Hv as [|? y0 ? ? H0 Hv1]; subst.
  inversion Hv1 as [|? y1 ? ? H1 Hv2]; subst. inversion Hv2 as [|? y2 ? ? H2 Hv3]; subst. inversion Hv3; subst.
  unfold vidx, bind at 1.
  assert (G : forall k x, nth_error [x0; x1; x2] k = Some x -> k < 3 ->
     (match k with 0 => vindex_u0 c 3 [x0; x1; x2] | _ => vindex_uint c 3 [x0; x1; x2] k end) s = (Ok x, s)).
  { intros k x E Hk. unfold vindex_u0, vindex_uint, vget_unchecked, debug_assert, bind.
    destruct k as [|[|[|]]]; [| | |lia]; injection E as <-; destruct (debug c); reflexivity. }
  destruct i as [|[|[|]]]; [| | |lia].
  - exists x0. rewrite (G 0 x0 eq_refl) by lia. split; [apply HC|exact H0].
  - exists x1. rewrite (G 1 x1 eq_refl) by lia. split; [apply HC|exact H1].
  - exists x2. rewrite (G 2 x2 eq_refl) by lia. split; [apply HC|exact H2].
Qed.
Lemma sim_vcross a a' b b' : RV a a' -> RV b b' -> length a = 3 -> length b = 3 -> sim pa RV (vcross c o a b) (v_cross A a' b').
Proof.
  intros Ha Hb La Lb.
  assert (G : forall i j k l, i < 3 -> j < 3 -> k < 3 -> l < 3 -> sim pa R (cross_term c o a b i j k l)
     (a_sub A (a_mul A (at1 A a' i) (at1 A b' j)) (a_mul A (at1 A a' k) (at1 A b' l)))).
  { intros i j k l ? ? ? ?. unfold cross_term.
    do 2 (eapply sim_bind; [apply sim_vidx; [eassumption|assumption|assumption]|intros ? ?]).
    eapply sim_bind; [apply HS; eassumption|intros ? ?].
    do 2 (eapply sim_bind; [apply sim_vidx; [eassumption|assumption|assumption]|intros ? ?]).
    eapply sim_bind; [apply HS; eassumption|intros ? ?]. now apply H. }
  unfold vcross, v_cross. do 3 (eapply sim_bind; [apply G; lia|intros ? ?]). apply sim_ret. cbn.
  repeat constructor; assumption.
Qed.
End Ring.

(** ** Exact arithmetic: [R] is equality and nothing panics. *)
Lemma exact_sim_semi {S T} (o : ops S T) A : exact_semi o A -> sim_semi false eq o A.
Proof.
  intros [Z O HA HM HCl]. split; auto.
  - intros x y ? ? <- <- s. left. exists (a_add A x y). split; [apply HA|reflexivity].
  - intros x y ? ? <- <- s. left. exists (a_mul A x y). split; [apply HM|reflexivity].
Qed.
Lemma exact_sim {S T} (o : ops S T) A : exact o A -> sim_ring false eq o A.
Proof.
  intros [HE HSub HN]. split; [now apply exact_sim_semi| |].
  - intros x y ? ? <- <- s. left. exists (a_sub A x y). split; [apply HSub|reflexivity].
  - intros x ? <- s. left. exists (a_neg A x). split; [apply HN|reflexivity].
Qed.
Lemma sim_eq {S T} (m : M S T) x : sim false eq m x -> forall s, m s = (Ok x, s).
Proof. intros H s. destruct (H s) as [(a & E & <-)|(P & _)]; [exact E|discriminate]. Qed.
Lemma sim_eqv {S T} (m : M S (list T)) x : sim false (Forall2 eq) m x -> forall s, m s = (Ok x, s).
Proof. intros H s. destruct (H s) as [(a & E & HR)|(P & _)]; [|discriminate]. apply Forall2_eq_inv in HR. now subst. Qed.
Lemma sim_eqm {S T} (m : M S (list (list T))) x : sim false (Forall2 (Forall2 eq)) m x -> forall s, m s = (Ok x, s).
Proof. intros H s. destruct (H s) as [(a & E & HR)|(P & _)]; [|discriminate]. apply Forall2_eq2_inv in HR. now subst. Qed.
