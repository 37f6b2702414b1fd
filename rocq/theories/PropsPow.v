(** * PropsPow.v - C96: powers of f32 and f64 matrices. *)
From Coq Require Import List Arith Bool Lia ZArith Reals Lra.
From Flocq Require Import Core BinarySingleNaN.
From Verif Require Import Rust Iter Elem VectorM MatIterM MatrixM ArithM OpsM SpecCommon SpecAlg FloatM SpecReal SpecPost SpecPow.
From Verif Require Import Harness IterProofs OwnProofs VecProofs MatProofs Sim OpsPure Algebra PropsAlg FloatErr PropsFloat PropsFloatErr PropsFloatInt FloatPost PowProofs.
Import ListNotations.
Local Open Scope R_scope.

Section Run.
Context {prec emax : Z} {Hgt : Prec_gt_0 prec} {Hlt : Prec_lt_emax prec emax}.
Local Notation AR := (fl_arith prec emax Hgt Hlt).
Local Notation OP := (fl_ops prec emax Hgt Hlt).
Lemma pow_run S (c : cfg) (d : ety S (fl prec emax)) n m e (s : S) : rect n n m -> (n < W c)%nat ->
  mpow c d OP n m e s = (Ok (pnum_pow (m_mul AR n n n) (m_id AR n) m e), s) /\ rect n n (pnum_pow (m_mul AR n n n) (m_id AR n) m e).
Proof.
  intros R HW. pose proof (ex_semi _ _ (proj1 (@fl_exact S prec emax Hgt Hlt))) as fse.
  set (Q := fun (x y : list (list (fl prec emax))) => x = y /\ rect n n x).
  assert (HC : forall x y, Q x y -> sim false Q (mclone (S:=S) c d (o_clone OP) n n x) y).
  { intros u v [-> Hu] s1. left. exists v. split; [apply mclone_id; [exact Hu|apply (ex_clone _ _ fse)]|now split]. }
  assert (K : sim false Q (mpow c d OP n m e) (pnum_pow (m_mul AR n n n) (m_id AR n) m e)).
  { unfold mpow. eapply sim_bind; [apply (HC m m); now split|]. intros u Hu. apply sim_num_pow; [|exact HC| |exact Hu].
    - intros x1 x2 y1 y2 [-> H1] [-> H2] s1. left. eexists. split; [exact (mulm c d _ _ fse n n n _ _ s1 H1 H2 HW HW HW)|]. split; [reflexivity|apply mat_rect].
    - intros s1. left. eexists. split; [exact (idm c d _ _ fse n s1)|]. split; [reflexivity|apply mat_rect]. }
  destruct (K s) as [(p & E0 & -> & H)|(? & _)]; [now split|discriminate].
Qed.
Context {OK : fmt_ok prec emax}.
Lemma fin_mat_dec n (x : list (list (fl prec emax))) :
  {forall i j, (i < n)%nat -> (j < n)%nat -> fin (at2 AR x i j)} + {exists i j, (i < n)%nat /\ (j < n)%nat /\ ~ fin (at2 AR x i j)}.
Proof.
  assert (D1 : forall a, {forall i j, (i < a)%nat -> (j < n)%nat -> fin (at2 AR x i j)} + {exists i j, (i < a)%nat /\ (j < n)%nat /\ ~ fin (at2 AR x i j)}).
  { induction a as [|a [IH|IH]]; [left; intros; lia| |right; destruct IH as (i & j & Hi & Hj & H); exists i, j; auto].
    assert (D2 : forall b, {forall j, (j < b)%nat -> fin (at2 AR x a j)} + {exists j, (j < b)%nat /\ ~ fin (at2 AR x a j)}).
    { induction b as [|b [I|I]]; [left; intros; lia| |right; destruct I as (j & Hj & H); exists j; auto].
      destruct (bool_dec (is_finite (at2 AR x a b)) true) as [E|E]; [left|right; exists b; auto].
      intros j Hj. destruct (Nat.eq_dec j b) as [->|]; [exact E|apply I; lia]. }
    destruct (D2 n) as [K|K]; [left|right; destruct K as (j & Hj & K); exists a, j; auto].
    intros i j Hi Hj. destruct (Nat.eq_dec i a) as [->|]; [now apply K|apply IH; lia]. }
  apply D1.
Qed.
Lemma e_pow_exact S (c : cfg) (d : ety S (fl prec emax)) n m e (s : S) : rect n n m -> (n < W c)%nat -> Forall (Forall whole) m ->
  (forall k i j, (k <= e)%nat -> (i < n)%nat -> (j < n)%nat -> rpow n (rabs (rat2 m)) k i j <= b2 prec) ->
  exists p, mpow c d OP n m e s = (Ok p, s) /\ rect n n p /\ forall i j, (i < n)%nat -> (j < n)%nat ->
  whole (at2 AR p i j) /\ rat2 p i j = rpow n (rat2 m) e i j.
Proof.
  intros R HW H HB. eexists. destruct (pow_run S c d n m e s R HW) as [E1 E2]. split; [exact E1|]. split; [exact E2|].
  intros i j Hi Hj. apply val_fin. now apply pow_whole.
Qed.
Lemma e_pow_0 n m i j : (i < n)%nat -> (j < n)%nat ->
  fin (at2 AR (m_id AR n) i j) /\ rat2 (m_id AR n) i j = rpow n m 0 i j.
Proof.
  intros Hi Hj. change (rat2 (m_id AR n) i j) with (B2R (at2 AR (m_id AR n) i j)). unfold m_id. rewrite (at2_mat AR n n _ i j Hi Hj). cbn [rpow].
  destruct (i =? j)%nat; [split; [apply is_finite_Bone|apply Bone_correct]|split; reflexivity].
Qed.
Lemma e_pow_zero n m B i j : (i < n)%nat -> (j < n)%nat ->
  Rabs (rat2 (m_id AR n) i j - rpow n m 0 i j) <=
    INR ((0 - 1) * (n + 1)) * b2 (1 - prec) * rpow n (rabs m) 0 i j + 2 * INR 0 * INR n * INR n * b2 (3 - emax - prec) * B ^ 0.
Proof.
  intros Hi Hj. rewrite (proj2 (e_pow_0 n m i j Hi Hj)), Rminus_diag_eq, Rabs_R0 by reflexivity. cbn [Nat.sub Nat.mul INR]. lra.
Qed.
Lemma e_pow_accurate S (c : cfg) (d : ety S (fl prec emax)) n m e (B : R) (s : S) : rect n n m -> (n < W c)%nat ->
  (Z.of_nat (e * (n + 1)) <= 2 ^ (prec - 3))%Z -> 1 <= B -> row_sums_le n B (rat2 m) ->
  exists p, mpow c d OP n m e s = (Ok p, s) /\ rect n n p /\
  ((forall i j, (i < n)%nat -> (j < n)%nat -> fin (at2 AR p i j)) ->
   forall i j, (i < n)%nat -> (j < n)%nat -> Rabs (rat2 p i j - rpow n (rat2 m) e i j) <=
     INR ((e - 1) * (n + 1)) * b2 (1 - prec) * rpow n (rabs (rat2 m)) e i j + 2 * INR e * INR n * INR n * b2 (3 - emax - prec) * B ^ e).
Proof.
  intros R HW Hn HB HR. eexists. destruct (pow_run S c d n m e s R HW) as [E1 E2]. split; [exact E1|]. split; [exact E2|]. intros F i j Hi Hj.
  destruct (Nat.eq_dec e 0) as [->|Ne]; [now apply e_pow_zero|].
  destruct (pow_post n m B HB HR e ltac:(lia) (fin_mat_dec n) F) as [T HT]. apply (approx_final n m B HB e _ T i j); auto. lia.
Qed.
Lemma e_pow_finite S (c : cfg) (d : ety S (fl prec emax)) n m e (B : R) (s : S) : rect n n m -> (n < W c)%nat ->
  (Z.of_nat (e * (n + 1)) <= 2 ^ (prec - 3))%Z -> 1 <= B -> row_sums_le n B (rat2 m) -> 8 * B ^ e <= b2 emax ->
  (forall i j, (i < n)%nat -> (j < n)%nat -> fin (at2 AR m i j)) ->
  exists p, mpow c d OP n m e s = (Ok p, s) /\ rect n n p /\
  forall i j, (i < n)%nat -> (j < n)%nat -> fin (at2 AR p i j).
Proof.
  intros R HW Hn HB HR HO F. eexists. destruct (pow_run S c d n m e s R HW) as [E1 E2]. split; [exact E1|]. split; [exact E2|]. intros i j Hi Hj.
  destruct (Nat.eq_dec e 0) as [->|Ne]; [now apply (e_pow_0 n (fun _ _ => 0))|].
  destruct (pow_fin n m B HB HR e ltac:(lia) Hn HO F) as [T [_ HT]]. now apply HT.
Qed.
End Run.

(** ** Small integers: a power is exact if no entry of the powers of |m| up to the exponent exceeds
    2^p (2^24 for f32, 2^53 for f64). *)
Theorem C96_exact : forall (t : float_type) S (c : cfg) (d : ety S (float t)) n m e (s : S), rect n n m -> (n < W c)%nat -> Forall (Forall whole) m ->
  (forall k i j, (k <= e)%nat -> (i < n)%nat -> (j < n)%nat -> rpow n (rabs (rat2 m)) k i j <= b2 (fprec t)) ->
  exists p, mpow c d (float_ops t) n m e s = (Ok p, s) /\ rect n n p /\ forall i j, (i < n)%nat -> (j < n)%nat ->
  whole (at2 (float_arith t) p i j) /\ rat2 p i j = rpow n (rat2 m) e i j.
Proof. intros t S. exact (e_pow_exact S). Qed.
Print Assumptions C96_exact.
(** In particular if the entries are at most [B] and n^(e-1) B^e does not exceed it. *)
Theorem C96_entries : forall (t : float_type) S (c : cfg) (d : ety S (float t)) n m e (B : R) (s : S), rect n n m -> (n < W c)%nat -> Forall (Forall whole) m ->
  1 <= B -> (forall i j, (i < n)%nat -> (j < n)%nat -> Rabs (rat2 m i j) <= B) -> INR n ^ (e - 1) * B ^ e <= b2 (fprec t) ->
  exists p, mpow c d (float_ops t) n m e s = (Ok p, s) /\ rect n n p /\ forall i j, (i < n)%nat -> (j < n)%nat ->
  whole (at2 (float_arith t) p i j) /\ rat2 p i j = rpow n (rat2 m) e i j.
Proof.
  intros t S c d n m e B s R HW H HB HE HO. apply C96_exact; auto. intros k i j Hk Hi Hj.
  destruct k as [|k].
  - cbn [rpow]. apply Rle_trans with 1; [destruct (i =? j)%nat; lra|]. change 1 with (b2 0). apply bpow_le. destruct t; discriminate.
  - apply Rle_trans with (2 := HO). apply Rle_trans with (1 := rpow_entries n (rat2 m) B k i j ltac:(lra) HE Hi Hj).
    assert (1 <= INR n) by (change 1 with (INR 1); apply le_INR; lia).
    apply Rmult_le_compat; [apply pow_le; lra|apply pow_le; lra|apply Rle_pow; [assumption|lia]|apply Rle_pow; [assumption|lia]].
Qed.
Print Assumptions C96_entries.
(** The documentation's Fibonacci matrix with float entries: exact as long as F(e+1) <= 2^p. *)
Fixpoint fibo (k : nat) : Z := match k with 0%nat => 0%Z | S k' => match k' with 0%nat => 1%Z | S k'' => (fibo k' + fibo k'')%Z end end.
Definition fib_mat (t : float_type) : list (list (float t)) :=
  [[a_one (float_arith t); a_one (float_arith t)]; [a_one (float_arith t); a_zero (float_arith t)]].
Lemma fibo_SS k : fibo (S (S k)) = (fibo (S k) + fibo k)%Z.
Proof. reflexivity. Qed.
Lemma fibo_pos k : (0 <= fibo k /\ 0 <= fibo (S k))%Z.
Proof. induction k as [|k [I1 I2]]; [split; discriminate|]. split; [exact I2|]. rewrite fibo_SS. lia. Qed.
Lemma fibo_mono k l : (1 <= k <= l)%nat -> (fibo k <= fibo l)%Z.
Proof.
  intros [H1 H]. induction H as [|l H IH]; [lia|]. apply Z.le_trans with (1 := IH). destruct l as [|l]; [lia|]. rewrite fibo_SS. pose proof (fibo_pos l). lia.
Qed.
Lemma one_val t : B2R (a_one (float_arith t)) = 1.
Proof. apply (Bone_correct (fprec t) (femax t)). Qed.
Lemma fib_entries t i j : (i < 2)%nat -> (j < 2)%nat -> rat2 (fib_mat t) i j = (if (i =? 1)%nat && (j =? 1)%nat then 0 else 1).
Proof. intros Hi Hj. destruct i as [|[|i]]; [| |lia]; (destruct j as [|[|j]]; [| |lia]); try apply one_val. reflexivity. Qed.
Lemma fib_rpow (A : nat -> nat -> R) k : A 0%nat 0%nat = 1 -> A 0%nat 1%nat = 1 -> A 1%nat 0%nat = 1 -> A 1%nat 1%nat = 0 ->
  rpow 2 A k 0 0 = IZR (fibo (S k)) /\ rpow 2 A k 0 1 = IZR (fibo k) /\ rpow 2 A k 1 0 = IZR (fibo k) /\ rpow 2 A k 1 1 = IZR (fibo (S k) - fibo k).
Proof.
  intros A1 A2 A3 A4. induction k as [|k (I1 & I2 & I3 & I4)]; [repeat split; reflexivity|].
  cbn [rpow]. unfold rsum. cbn [seq fold_left]. rewrite A1, A2, A3, A4, I1, I2, I3, I4, fibo_SS, !minus_IZR, !plus_IZR. repeat split; ring.
Qed.
Theorem C96_fibonacci : forall (t : float_type) S (c : cfg) (d : ety S (float t)) e (s : S), IZR (fibo (e + 1)) <= b2 (fprec t) ->
  exists p, mpow c d (float_ops t) 2 (fib_mat t) e s = (Ok p, s) /\ rect 2 2 p /\
  rat2 p 0 0 = IZR (fibo (e + 1)) /\ rat2 p 0 1 = IZR (fibo e) /\ rat2 p 1 0 = IZR (fibo e) /\ rat2 p 1 1 = IZR (fibo (e + 1) - fibo e).
Proof.
  intros t S c d e s H. pose proof (W_big c) as HW.
  pose proof (fib_entries t 0 0 ltac:(lia) ltac:(lia)) as A1. pose proof (fib_entries t 0 1 ltac:(lia) ltac:(lia)) as A2.
  pose proof (fib_entries t 1 0 ltac:(lia) ltac:(lia)) as A3. pose proof (fib_entries t 1 1 ltac:(lia) ltac:(lia)) as A4. change (rat2 (fib_mat t) 0 0 = 1) in A1. change (rat2 (fib_mat t) 0 1 = 1) in A2. change (rat2 (fib_mat t) 1 0 = 1) in A3. change (rat2 (fib_mat t) 1 1 = 0) in A4.
  destruct (C96_exact t S c d 2 (fib_mat t) e s) as (p & E1 & E2 & E3).
  - repeat constructor.
  - lia.
  - assert (W1 : whole (a_one (float_arith t))) by (split; [apply (is_finite_Bone (fprec t) (femax t))|exists 1%Z; apply one_val]).
    assert (W0 : whole (a_zero (float_arith t))) by (split; [reflexivity|exists 0%Z; reflexivity]). repeat first [apply Forall_nil|apply Forall_cons|exact W1|exact W0].
  - intros k i j Hk Hi Hj.
    destruct (fib_rpow (rabs (rat2 (fib_mat t))) k) as (I1 & I2 & I3 & I4);
      [unfold rabs; rewrite A1; apply Rabs_R1|unfold rabs; rewrite A2; apply Rabs_R1|unfold rabs; rewrite A3; apply Rabs_R1|unfold rabs; rewrite A4; apply Rabs_R0|].
    apply Rle_trans with (2 := H). rewrite Nat.add_1_r. pose proof (fibo_mono (Datatypes.S k) (Datatypes.S e) ltac:(lia)) as M.
    assert (M2 : (fibo k <= fibo (Datatypes.S k))%Z) by (destruct k; [discriminate|apply fibo_mono; lia]). pose proof (fibo_pos k).
    destruct i as [|[|i]]; [| |lia]; (destruct j as [|[|j]]; [| |lia]); rewrite ?I1, ?I2, ?I3, ?I4; apply IZR_le; lia.
  - exists p. split; [exact E1|]. split; [exact E2|]. destruct (fib_rpow (rat2 (fib_mat t)) e A1 A2 A3 A4) as (I1 & I2 & I3 & I4).
    rewrite Nat.add_1_r. destruct (E3 0 0 ltac:(lia) ltac:(lia))%nat as [_ ->]. destruct (E3 0 1 ltac:(lia) ltac:(lia))%nat as [_ ->].
    destruct (E3 1 0 ltac:(lia) ltac:(lia))%nat as [_ ->]. destruct (E3 1 1 ltac:(lia) ltac:(lia))%nat as [_ ->]. auto.
Qed.
Print Assumptions C96_fibonacci.
(** ** Any matrix: if no entry of the power is infinite or NaN, every entry is within (e - 1)(n + 1)
    epsilon of the exact one, relative to the entry of |m|^e; underflow can cost 2 e n^2 B^e times
    the smallest positive number more, where the rows of |m| sum to at most [B]. *)
Theorem C96_accurate : forall (t : float_type) S (c : cfg) (d : ety S (float t)) n m e (B : R) (s : S), rect n n m -> (n < W c)%nat ->
  (Z.of_nat (e * (n + 1)) <= 2 ^ (fprec t - 3))%Z -> 1 <= B -> row_sums_le n B (rat2 m) ->
  exists p, mpow c d (float_ops t) n m e s = (Ok p, s) /\ rect n n p /\
  ((forall i j, (i < n)%nat -> (j < n)%nat -> finite (at2 (float_arith t) p i j)) ->
   forall i j, (i < n)%nat -> (j < n)%nat -> Rabs (rat2 p i j - rpow n (rat2 m) e i j) <=
     INR ((e - 1) * (n + 1)) * epsilon t * rpow n (rabs (rat2 m)) e i j + 2 * INR e * INR n * INR n * smallest t * B ^ e).
Proof. intros t S. exact (e_pow_accurate S). Qed.
Print Assumptions C96_accurate.
(** No entry is infinite or NaN if 8 B^e <= 2^128 (f32) or 2^1024 (f64): in particular, the powers of
    a stochastic matrix. *)
Theorem C96_finite : forall (t : float_type) S (c : cfg) (d : ety S (float t)) n m e (B : R) (s : S), rect n n m -> (n < W c)%nat ->
  (Z.of_nat (e * (n + 1)) <= 2 ^ (fprec t - 3))%Z -> 1 <= B -> row_sums_le n B (rat2 m) -> 8 * B ^ e <= b2 (femax t) ->
  (forall i j, (i < n)%nat -> (j < n)%nat -> finite (at2 (float_arith t) m i j)) ->
  exists p, mpow c d (float_ops t) n m e s = (Ok p, s) /\ rect n n p /\
  forall i j, (i < n)%nat -> (j < n)%nat -> finite (at2 (float_arith t) p i j).
Proof. intros t S. exact (e_pow_finite S). Qed.
Print Assumptions C96_finite.

(** The hypotheses are met: F(77) and F(78) come out exact in f64, F(36) in f32. *)
Fixpoint fibp (k : nat) (a b : Z) : Z * Z := match k with 0%nat => (a, b) | S k' => fibp k' b (a + b)%Z end.
Lemma fibp_fibo k l : fibp k (fibo l) (fibo (S l)) = (fibo (k + l), fibo (S (k + l))).
Proof. revert l. induction k as [|k IH]; intros l; [reflexivity|]. cbn [fibp]. rewrite Z.add_comm, <- fibo_SS, IH. now rewrite Nat.add_succ_r. Qed.
Lemma fibo_eq k : fibo k = fst (fibp k 0 1).
Proof. pose proof (fibp_fibo k 0) as H. rewrite Nat.add_0_r in H. change (fibo 0) with 0%Z in H. change (fibo 1) with 1%Z in H. now rewrite H. Qed.
Lemma two_pow k : 2 ^ k = b2 (Z.of_nat k).
Proof. induction k as [|k IH]; [reflexivity|]. rewrite Nat2Z.inj_succ, <- Z.add_1_l, bpow_plus, <- IH. reflexivity. Qed.
Lemma le_b2 z k : (0 <= k)%Z -> (z <= 2 ^ k)%Z -> IZR z <= b2 k.
Proof. intros Hk H. rewrite <- IZR_Zpower by exact Hk. apply IZR_le. exact H. Qed.
Example C96_ex : forall S (c : cfg) (d : ety S (float F64)) (d' : ety S (float F32)) (s : S),
  (exists p, mpow c d (float_ops F64) 2 (fib_mat F64) 77 s = (Ok p, s) /\ rat2 p 0 0 = 8944394323791464 /\ rat2 p 0 1 = 5527939700884757) /\
  (exists p, mpow c d' (float_ops F32) 2 (fib_mat F32) 35 s = (Ok p, s) /\ rat2 p 0 0 = 14930352 /\ rat2 p 0 1 = 9227465) /\
  (exists p, mpow c d (float_ops F64) 2 (fib_mat F64) 1000 s = (Ok p, s) /\ forall i j, (i < 2)%nat -> (j < 2)%nat -> finite (at2 (float_arith F64) p i j)).
Proof.
  intros S c d d' s. pose proof (W_big c) as HW. split; [|split].
  - assert (E : fst (fibp (77 + 1) 0 1) = 8944394323791464%Z) by (vm_compute; reflexivity). assert (E' : fst (fibp 77 0 1) = 5527939700884757%Z) by (vm_compute; reflexivity).
    destruct (C96_fibonacci F64 S c d 77 s) as (p & H & _ & H1 & H2 & _).
    + rewrite fibo_eq, E. apply le_b2; discriminate.
    + exists p. rewrite fibo_eq, E in H1. rewrite fibo_eq, E' in H2. auto.
  - assert (E : fst (fibp (35 + 1) 0 1) = 14930352%Z) by (vm_compute; reflexivity). assert (E' : fst (fibp 35 0 1) = 9227465%Z) by (vm_compute; reflexivity).
    destruct (C96_fibonacci F32 S c d' 35 s) as (p & H & _ & H1 & H2 & _).
    + rewrite fibo_eq, E. apply le_b2; discriminate.
    + exists p. rewrite fibo_eq, E in H1. rewrite fibo_eq, E' in H2. auto.
  - destruct (C96_finite F64 S c d 2 (fib_mat F64) 1000 2 s) as (p & H & _ & H2).
    + repeat constructor.
    + lia.
    + discriminate.
    + lra.
    + intros i Hi. unfold rsum. cbn [seq fold_left]. rewrite !fib_entries by lia. destruct (_ && _), (_ && _); rewrite ?Rabs_R0, ?Rabs_R1; lra.
    + rewrite two_pow. change 8 with (b2 3). rewrite <- bpow_plus. apply bpow_le. discriminate.
    + intros i j Hi Hj. destruct i as [|[|i]]; [| |lia]; (destruct j as [|[|j]]; [| |lia]); reflexivity.
    + exists p. auto.
Qed.
