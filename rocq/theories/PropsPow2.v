(** * PropsPow2.v - C98: scaling by powers of two is exact in f32 and f64. *)
From Coq Require Import List Arith Bool Lia ZArith Reals Lra.
From Flocq Require Import Core BinarySingleNaN.
From Verif Require Import Rust Iter Elem VectorM MatIterM MatrixM ArithM OpsM SpecCommon SpecAlg SpecRel FloatM SpecReal SpecPost SpecPow2.
From Verif Require Import Harness IterProofs OwnProofs VecProofs MatProofs Sim OpsSim OpsSim2 OpsPure Algebra PropsAlg PropsCross PropsFloat PropsFloatErr PropsSign PropsRel SignProofs PowProofs ZGrade Pow2Proofs.
Import ListNotations.

Section Kit.
Context {t : float_type} {S : Type}.
Notation FL := (float t).
Notation AR := (float_arith t).
Notation XA := (x_arith (fprec t)).
Notation bv := (map (@B2R (fprec t) (femax t))).
Notation bm := (map (map (@B2R (fprec t) (femax t)))).
Notation G := (x_graded (fprec t)).
Lemma half {B C} (R : B -> C -> Prop) (E : B -> B -> Prop) (mf mc : M S B) p P x s s1 : (forall a b, E a b -> a = b) ->
  sim false E mf p -> sim true E mc p -> sim true R mc P -> mc s = (Ok x, s1) -> mf s = (Ok x, s) /\ R x P.
Proof.
  intros HE H1 H2 H3 Ex. pose proof (ok_run _ _ _ _ _ _ _ H2 Ex) as Q. apply HE in Q. subst p. split; [|exact (ok_run _ _ _ _ _ _ _ H3 Ex)].
  destruct (H1 s) as [(a & Ea & Ha)|(Hf & _)]; [|discriminate]. apply HE in Ha. now subst a.
Qed.
Lemma both {B C} (R : B -> C -> Prop) (E : B -> B -> Prop) (run run' : fops S FL -> M S B) p p' P P' (Q : B -> B -> Prop) s : (forall a b, E a b -> a = b) ->
  sim false E (run (float_fops t)) p -> sim true E (run (careful_fops t)) p -> sim true R (run (careful_fops t)) P ->
  sim false E (run' (float_fops t)) p' -> sim true E (run' (careful_fops t)) p' -> sim true R (run' (careful_fops t)) P' ->
  (forall x y, R x P -> R y P' -> Q x y) -> scales t run run' Q s.
Proof.
  intros HE H1 H2 H3 H1' H2' H3' HQ x y s1 s2 Ex Ey. destruct (half R E _ _ _ _ _ _ _ HE H1 H2 H3 Ex) as [K1 K2]. destruct (half R E _ _ _ _ _ _ _ HE H1' H2' H3' Ey) as [K1' K2'].
  split; [exact K1|]. split; [exact K1'|]. now apply HQ.
Qed.
Definition FX := exact_sim (S:=S) (float_ops t) AR fex.
Definition CX : sim_ring true eq (careful_ops t (S := S)) AR := careful_sim.
Definition RX : sim_ring true Rl (careful_ops t (S := S)) XA := careful_simx.
Lemma eq1 (a b : FL) : a = b -> a = b. Proof. exact (fun H => H). Qed.
Lemma zero_n n f (v w : list FL) : scaled1 n f v w -> length v = n /\ length w = n /\ Forall2 Rl v (bv v) /\ Forall2 Rl w (bv w).
Proof. intros H. destruct (s1_len _ _ _ _ H). destruct (s1_rel _ _ _ _ H) as (A & B & _). auto. Qed.
Lemma mat_F row col f g (m p : list (list FL)) : scaled2 row col f g m p -> rect row col m /\ rect row col p /\ Forall2 (Forall2 Rl) m (bm m) /\ Forall2 (Forall2 Rl) p (bm p).
Proof. intros H. destruct (s2_rect _ _ _ _ _ _ H). destruct (s2_rel _ _ _ _ _ _ H) as (A & B & _). auto. Qed.
Lemma get1 n f (v w : list FL) i : scaled1 n f v w -> (i < n)%nat -> srel (f i) (at1 XA (bv v) i) (at1 XA (bv w) i).
Proof. intros H. destruct (s1_rel _ _ _ _ H) as (_ & _ & _ & _ & K). exact (K i). Qed.
Lemma get2 row col f g (m p : list (list FL)) i j : scaled2 row col f g m p -> (i < row)%nat -> (j < col)%nat -> srel (f i + g j) (at2 XA (bm m) i j) (at2 XA (bm p) i j).
Proof. intros H. destruct (s2_rel _ _ _ _ _ _ H) as (_ & _ & K). exact (K i j). Qed.
Lemma fin1 k (x y : FL) : scaled k x y -> Rl x (B2R x) /\ Rl y (B2R y) /\ srel k (B2R x) (B2R y).
Proof. intros (F1 & F2 & E). repeat split; assumption. Qed.
Lemma out1 k (x y : FL) r q : srel k r q -> Rl x r -> Rl y q -> scaled k x y.
Proof. intros E [F1 <-] [F2 <-]. now repeat split. Qed.
Lemma outv n k (x y : list FL) f g : (forall i, (i < n)%nat -> srel (k i) (f i) (g i)) -> Forall2 Rl x (vec n f) -> Forall2 Rl y (vec n g) -> scaled1 n k x y.
Proof. intros H H1 H2. apply (s1_intro n k x y _ _ H1 H2); [apply vec_length|apply vec_length|]. intros i Hi. rewrite !at1_vec by exact Hi. now apply H. Qed.
Lemma outm row col k l (x y : list (list FL)) f g : (forall i j, (i < row)%nat -> (j < col)%nat -> srel (k i + l j) (f i j) (g i j)) ->
  Forall2 (Forall2 Rl) x (mat row col f) -> Forall2 (Forall2 Rl) y (mat row col g) -> scaled2 row col k l x y.
Proof. intros H H1 H2. apply (s2_intro row col k l x y _ _ H1 H2); [apply mat_rect|apply mat_rect|]. intros i j Hi Hj. rewrite !at2_mat by assumption. now apply H. Qed.
Lemma faithful_c : faithful (o_clone (careful_ops t (S:=S))). Proof. intros x s. reflexivity. Qed.
Lemma faithful_f : faithful (o_clone (float_ops t (S:=S))). Proof. intros x s. reflexivity. Qed.
Lemma div_f (x y x' y' : FL) : x = x' -> y = y' -> sim (S:=S) false eq (o_div (float_ops t) x y) (Bdiv mode_NE x' y').
Proof. intros -> ->. intros s. left. eexists. split; [apply fdiv|reflexivity]. Qed.
Lemma div_c (x y x' y' : FL) : x = x' -> y = y' -> sim (S:=S) true eq (o_div (careful_ops t) x y) (Bdiv mode_NE x' y').
Proof. intros -> ->. apply careful_div. Qed.
End Kit.
Ltac pick F := first [exact (F FX) | exact (F CX) | exact (F RX)].
Ltac fx := cbn [f_ops float_fops careful_fops];
  first [assumption | apply Forall2_eq | apply Forall2_eq2 | reflexivity | apply faithful_c | apply faithful_f
        | apply FX | apply CX | apply RX | apply (sm_semi _ _ _ _ FX) | apply (sm_semi _ _ _ _ CX) | apply (sm_semi _ _ _ _ RX)
        | apply div_f | apply div_c | apply careful_divx; assumption | eassumption ].
Ltac run3 L := cbn [f_ops float_fops careful_fops]; apply L; fx.

Ltac run4 t L := cbn [f_ops float_fops careful_fops]; first [apply L with (A := float_arith t); fx | apply L with (A := x_arith (fprec t)); fx].

(** ** The bound *)
Theorem C98_small : forall (t : float_type) (x : float t), small x = true <-> finite x /\ (Rabs (B2R x) <= bpow radix2 (2 - femax t))%R.
Proof. intros t x. apply small_spec. Qed.
Print Assumptions C98_small.

(** ** Vectors *)
Theorem C98_vectors : forall (t : float_type) S (c : cfg) (d : ety S (float t)) n (f g : nat -> Z) v v' w w' (s : S),
  n < W c -> scaled1 n f v v' -> scaled1 n g w w' ->
  (forall k, (forall i, i < n -> f i = k) ->
     scales t (fun F => vsum (f_ops F) n v) (fun F => vsum (f_ops F) n v') (scaled k) s) /\
  (forall k, (forall i, i < n -> (f i + g i)%Z = k) ->
     scales t (fun F => vdot (f_ops F) n v w) (fun F => vdot (f_ops F) n v' w') (scaled k) s) /\
  ((forall i, i < n -> f i = g i) ->
     scales t (fun F => vzip_vv c d d d n (o_add (f_ops F)) v w) (fun F => vzip_vv c d d d n (o_add (f_ops F)) v' w') (scaled1 n f) s /\
     scales t (fun F => vzip_vv c d d d n (o_sub (f_ops F)) v w) (fun F => vzip_vv c d d d n (o_sub (f_ops F)) v' w') (scaled1 n f) s) /\
  (forall k x x', scaled k x x' ->
     scales t (fun F => vscale c d d n (o_mul (f_ops F)) (o_clone (f_ops F)) v x) (fun F => vscale c d d n (o_mul (f_ops F)) (o_clone (f_ops F)) v' x')
       (scaled1 n (fun i => (f i + k)%Z)) s /\
     scales t (fun F => vscale c d d n (o_div (f_ops F)) (o_clone (f_ops F)) v x) (fun F => vscale c d d n (o_div (f_ops F)) (o_clone (f_ops F)) v' x')
       (scaled1 n (fun i => (f i - k)%Z)) s).
Proof.
  intros t S c d n f g v v' w w' s HW Hv Hw. pose proof (x_graded (fprec t)) as G.
  destruct (zero_n _ _ _ _ Hv) as (Lv & Lv' & Rv & Rv'). destruct (zero_n _ _ _ _ Hw) as (Lw & Lw' & Rw & Rw').
  split; [|split; [|split]].
  - intros k Hk. eapply (both Rl eq); [exact eq1|run3 @sim_vsum..|]. intros x y. apply out1. apply (zg_sum _ _ _ _ G). intros i Hi. rewrite <- (Hk i Hi). now apply (get1 n).
  - intros k Hk. eapply (both Rl eq); [exact eq1|run3 @sim_vdot..|]. intros x y. apply out1. apply (zg_sum _ _ _ _ G). intros i Hi.
    apply (zg_mul' _ _ _ _ G) with (b1 := f i) (b2 := g i); [symmetry; now apply Hk|now apply (get1 n)|now apply (get1 n)].
  - intros Hfg. split.
    + eapply (both (Forall2 Rl) (Forall2 eq)); [apply Forall2_eq_inv|run4 t @sim_vzip_vv..|]. intros x y. apply outv. intros i Hi.
      apply (zg_add _ _ _ _ G); [now apply (get1 n)|]. rewrite (Hfg i Hi). now apply (get1 n).
    + eapply (both (Forall2 Rl) (Forall2 eq)); [apply Forall2_eq_inv|run4 t @sim_vzip_vv..|]. intros x y. apply outv. intros i Hi.
      apply (zg_sub _ _ _ _ G); [now apply (get1 n)|]. rewrite (Hfg i Hi). now apply (get1 n).
  - intros k x x' Hx. destruct (fin1 _ _ _ Hx) as (F1 & F2 & E). split.
    + eapply (both (Forall2 Rl) (Forall2 eq)); [apply Forall2_eq_inv|run4 t @sim_vscale..|]. intros p q. apply outv. intros i Hi.
      apply (zg_mul' _ _ _ _ G) with (b1 := f i) (b2 := k); [reflexivity|now apply (get1 n)|exact E].
    + eapply (both (Forall2 Rl) (Forall2 eq)); [apply Forall2_eq_inv|run4 t @sim_vscale..|]. intros p q. apply outv. intros i Hi.
      apply (x_div_all (fprec t)); [now apply (get1 n)|exact E].
Qed.
Print Assumptions C98_vectors.

(** ** Matrices *)
Theorem C98_products : forall (t : float_type) S (c : cfg) (d : ety S (float t)) l n r (f g h : nat -> Z) a a' (s : S),
  l < W c -> n < W c -> r < W c -> scaled2 l n f g a a' ->
  (forall b b', scaled2 n r (fun k => (- g k)%Z) h b b' ->
     scales t (fun F => mmul_vv c d (f_ops F) l n r a b) (fun F => mmul_vv c d (f_ops F) l n r a' b') (scaled2 l r f h) s) /\
  (forall v v' k, scaled1 n (fun j => (k - g j)%Z) v v' ->
     scales t (fun F => mmulv c d (f_ops F) l n a v) (fun F => mmulv c d (f_ops F) l n a' v') (scaled1 l (fun i => (f i + k)%Z)) s) /\
  (forall b b', scaled2 l n f g b b' ->
     scales t (fun F => mzip_vv c d d d l n (o_add (f_ops F)) a b) (fun F => mzip_vv c d d d l n (o_add (f_ops F)) a' b') (scaled2 l n f g) s /\
     scales t (fun F => mzip_vv c d d d l n (o_sub (f_ops F)) a b) (fun F => mzip_vv c d d d l n (o_sub (f_ops F)) a' b') (scaled2 l n f g) s) /\
  (forall k x x', scaled k x x' ->
     scales t (fun F => mscale c d l n (o_mul (f_ops F)) (o_clone (f_ops F)) a x) (fun F => mscale c d l n (o_mul (f_ops F)) (o_clone (f_ops F)) a' x')
       (scaled2 l n (fun i => (f i + k)%Z) g) s /\
     scales t (fun F => mscale c d l n (o_div (f_ops F)) (o_clone (f_ops F)) a x) (fun F => mscale c d l n (o_div (f_ops F)) (o_clone (f_ops F)) a' x')
       (scaled2 l n (fun i => (f i - k)%Z) g) s).
Proof.
  intros t S c d l n r f g h a a' s Hl Hn Hr Ha. pose proof (x_graded (fprec t)) as G.
  destruct (mat_F _ _ _ _ _ _ Ha) as (Ra & Ra' & Fa & Fa'). split; [|split; [|split]].
  - intros b b' Hb. destruct (mat_F _ _ _ _ _ _ Hb) as (Rb & Rb' & Fb & Fb').
    eapply (both (Forall2 (Forall2 Rl)) (Forall2 (Forall2 eq))); [apply Forall2_eq2_inv|run3 @sim_mmul_vv..|]. intros x y. apply outm. intros i j Hi Hj.
    apply (zg_sum _ _ _ _ G). intros k Hk. apply (zg_mul' _ _ _ _ G) with (b1 := (f i + g k)%Z) (b2 := (- g k + h j)%Z); [lia|now apply (get2 l n)|now apply (get2 n r (fun k => (- g k)%Z) h)].
  - intros v v' k Hv. destruct (zero_n _ _ _ _ Hv) as (Lv & Lv' & Fv & Fv').
    eapply (both (Forall2 Rl) (Forall2 eq)); [apply Forall2_eq_inv|run3 @sim_mmulv..|]. intros x y. apply outv. intros i Hi.
    apply (zg_sum _ _ _ _ G). intros j Hj. apply (zg_mul' _ _ _ _ G) with (b1 := (f i + g j)%Z) (b2 := (k - g j)%Z); [lia|now apply (get2 l n)|now apply (get1 n (fun j => (k - g j)%Z))].
  - intros b b' Hb. destruct (mat_F _ _ _ _ _ _ Hb) as (Rb & Rb' & Fb & Fb'). split.
    + eapply (both (Forall2 (Forall2 Rl)) (Forall2 (Forall2 eq))); [apply Forall2_eq2_inv|run4 t @sim_mzip_vv..|]. intros x y. apply outm. intros i j Hi Hj.
      apply (zg_add _ _ _ _ G); now apply (get2 l n).
    + eapply (both (Forall2 (Forall2 Rl)) (Forall2 (Forall2 eq))); [apply Forall2_eq2_inv|run4 t @sim_mzip_vv..|]. intros x y. apply outm. intros i j Hi Hj.
      apply (zg_sub _ _ _ _ G); now apply (get2 l n).
  - intros k x x' Hx. destruct (fin1 _ _ _ Hx) as (F1 & F2 & E). split.
    + eapply (both (Forall2 (Forall2 Rl)) (Forall2 (Forall2 eq))); [apply Forall2_eq2_inv|run4 t @sim_mscale..|]. intros p q. apply outm. intros i j Hi Hj.
      apply (zg_mul' _ _ _ _ G) with (b1 := (f i + g j)%Z) (b2 := k); [lia|now apply (get2 l n)|exact E].
    + eapply (both (Forall2 (Forall2 Rl)) (Forall2 (Forall2 eq))); [apply Forall2_eq2_inv|run4 t @sim_mscale..|]. intros p q. apply outm. intros i j Hi Hj.
      replace (f i - k + g j)%Z with (f i + g j - k)%Z by lia.
      apply (x_div_all (fprec t)); [now apply (get2 l n)|exact E].
Qed.
Print Assumptions C98_products.

(** ** The cross product *)
Theorem C98_cross : forall (t : float_type) S (c : cfg) (f g : nat -> Z) e v v' w w' (s : S),
  scaled1 3 f v v' -> scaled1 3 g w w' -> (forall i, i < 3 -> f i = (g i + e)%Z) ->
  scales t (fun F => vcross c (f_ops F) v w) (fun F => vcross c (f_ops F) v' w') (scaled1 3 (fun i => (g 0%nat + g 1%nat + g 2%nat - g i + e)%Z)) s.
Proof.
  intros t S c f g e v v' w w' s Hv Hw Hfg. pose proof (x_graded (fprec t)) as G.
  destruct (zero_n _ _ _ _ Hv) as (Lv & Lv' & Rv & Rv'). destruct (zero_n _ _ _ _ Hw) as (Lw & Lw' & Rw & Rw').
  eapply (both (Forall2 Rl) (Forall2 eq)); [apply Forall2_eq_inv|run3 @sim_vcross..|]. intros x y. apply outv.
  pose proof (Hfg 0 ltac:(lia)). pose proof (Hfg 1 ltac:(lia)). pose proof (Hfg 2 ltac:(lia)).
  assert (K : forall b i j, i < 3 -> j < 3 -> b = (f i + g j)%Z -> srel b (a_mul (x_arith (fprec t)) (at1 (x_arith (fprec t)) (map B2R v) i) (at1 (x_arith (fprec t)) (map B2R w) j))
     (a_mul (x_arith (fprec t)) (at1 (x_arith (fprec t)) (map B2R v') i) (at1 (x_arith (fprec t)) (map B2R w') j))).
  { intros b i j Hi Hj Hb. apply (zg_mul' _ _ _ _ G) with (b1 := f i) (b2 := g j); [exact Hb|now apply (get1 3)|now apply (get1 3)]. }
  intros i Hi. destruct i as [|[|[|i]]]; [| | |lia]; apply (zg_sub _ _ _ _ G); apply K; lia.
Qed.
Print Assumptions C98_cross.

(** ** Norms *)
Section Norm.
Context {S T U : Type} (pa : bool) (R : T -> U -> Prop) (c : cfg) (d : ety S T) (o : fops S T) (A : arith U) (rt : U -> U) (dv : U -> U -> U).
Hypothesis H : sim_semi pa R (f_ops o) A.
Hypothesis H2 : forall x x', R x x' -> sim pa R (f_powi2 o x) (a_mul A x' x').
Hypothesis Hr : forall x x', R x x' -> sim pa R (f_sqrt o x) (rt x').
Hypothesis Hd : forall x y x' y', R x x' -> R y y' -> sim pa R (o_div (f_ops o) x y) (dv x' y').
Let nm n v' := rt (sum A n (fun i => a_mul A (at1 A v' i) (at1 A v' i))).
Lemma sim_vnorm n v v' : Forall2 R v v' -> length v = n -> sim pa R (vnorm o n v) (nm n v').
Proof using H H2 Hr.
  intros Hv L. eapply sim_ext; [intros s; now apply vnorm_spec|reflexivity|].
  unfold nm, sum. rewrite <- (fold_at1 A n v' (fun acc x => a_add A acc (a_mul A x x))) by (rewrite <- L; symmetry; eapply Forall2_length; exact Hv).
  eapply sim_bind; [|intros a Ha; apply Hr; exact Ha].
  apply (sim_fold pa R R); [exact Hv|apply H|]. intros a a' x x' Ha Hx.
  eapply sim_bind; [apply (sim_faithful pa R _ a a' (sm_clone _ _ _ _ H) Ha)|]. intros b Hb. eapply sim_bind; [apply H2; exact Hb|]. intros e He. now apply (sm_add _ _ _ _ H).
Qed.
Lemma sim_vnormalized n v v' : Forall2 R v v' -> length v = n -> n < W c -> sim pa (Forall2 R) (vnormalized c d o n v) (vec n (fun i => dv (at1 A v' i) (nm n v'))).
Proof using H H2 Hr Hd.
  intros Hv L HW. unfold vnormalized.
  eapply sim_ext with (m' := nr <- vnorm o n v ;; vscale c d d n (o_div (f_ops o)) (o_clone (f_ops o)) v nr); [|reflexivity|].
  - intros s. unfold bind at 1. rewrite vclone_spec by exact L. rewrite (in_order_pure _ (fun e => e)) by (intros; apply (sm_clone _ _ _ _ H)). now rewrite map_id.
  - eapply sim_bind; [apply sim_vnorm; eassumption|]. intros x Hx. apply sim_vscale with (A := A); auto. apply (sm_clone _ _ _ _ H).
Qed.
End Norm.
Section Norms.
Context {t : float_type} {S : Type}.
Definition squared (x : float t) : float t := a_mul (float_arith t) x x.
Lemma norm_hyps :
  ((forall x x' : float t, x = x' -> sim (S:=S) false eq (f_powi2 (float_fops t) x) (a_mul (float_arith t) x' x')) /\
   (forall x x' : float t, x = x' -> sim (S:=S) false eq (f_sqrt (float_fops t) x) (Bsqrt mode_NE x'))) /\
  ((forall x x' : float t, x = x' -> sim (S:=S) true eq (f_powi2 (careful_fops t) x) (a_mul (float_arith t) x' x')) /\
   (forall x x' : float t, x = x' -> sim (S:=S) true eq (f_sqrt (careful_fops t) x) (Bsqrt mode_NE x'))) /\
  ((forall (x : float t) x', Rl x x' -> sim (S:=S) true Rl (f_powi2 (careful_fops t) x) (a_mul (x_arith (fprec t)) x' x')) /\
   (forall (x : float t) x', Rl x x' -> sim (S:=S) true Rl (f_sqrt (careful_fops t) x) (rx (fprec t) (sqrt x')))).
Proof.
  split; [|split]; split.
  - intros x x' ->. now apply sim_ret.
  - intros x x' ->. now apply sim_ret.
  - intros x x' ->. now apply (sm_mul _ _ _ _ (sm_semi _ _ _ _ CX)).
  - intros x x' ->. apply sqrt_simq.
  - intros x x' Hx. now apply (sm_mul _ _ _ _ (sm_semi _ _ _ _ RX)).
  - intros x x' Hx. now apply sqrt_simx.
Qed.
End Norms.
Theorem C98_norm : forall (t : float_type) S (c : cfg) (d : ety S (float t)) n k v v' (s : S),
  n < W c -> scaled1 n (fun _ => k) v v' ->
  scales t (fun F => vnorm F n v) (fun F => vnorm F n v') (scaled k) s /\
  scales t (fun F => vnormalized c d F n v) (fun F => vnormalized c d F n v') (scaled1 n (fun _ => 0%Z)) s.
Proof.
  intros t S c d n k v v' s HW Hv. pose proof (x_graded (fprec t)) as G.
  destruct (zero_n _ _ _ _ Hv) as (Lv & Lv' & Rv & Rv'). destruct (norm_hyps (t:=t) (S:=S)) as ((F2 & FR) & (C2 & CR) & (X2 & XR)).
  assert (N : srel k (rx (fprec t) (sqrt (sum (x_arith (fprec t)) n (fun i => a_mul (x_arith (fprec t)) (at1 (x_arith (fprec t)) (map B2R v) i) (at1 (x_arith (fprec t)) (map B2R v) i)))))
     (rx (fprec t) (sqrt (sum (x_arith (fprec t)) n (fun i => a_mul (x_arith (fprec t)) (at1 (x_arith (fprec t)) (map B2R v') i) (at1 (x_arith (fprec t)) (map B2R v') i)))))).
  { unfold srel. rewrite <- x_sqrt. f_equal. f_equal. apply (zg_sum _ _ _ _ G (k + k)%Z). intros i Hi.
    apply (zg_mul' _ _ _ _ G) with (b1 := k) (b2 := k); [reflexivity|now apply (get1 n (fun _ => k))|now apply (get1 n (fun _ => k))]. }
  split.
  - eapply (both Rl eq); [exact eq1|cbv beta; first [apply (sim_vnorm _ _ (float_fops t) _ _ (sm_semi _ _ _ _ FX) F2 FR)|apply (sim_vnorm _ _ (careful_fops t) _ _ (sm_semi _ _ _ _ CX) C2 CR)|apply (sim_vnorm _ _ (careful_fops t) _ _ (sm_semi _ _ _ _ RX) X2 XR)]; fx..|].
    intros x y. now apply out1.
  - eapply (both (Forall2 Rl) (Forall2 eq)); [apply Forall2_eq_inv|
      cbv beta; first [apply (sim_vnormalized _ _ _ _ (float_fops t) _ _ _ (sm_semi _ _ _ _ FX) F2 FR div_f)|apply (sim_vnormalized _ _ _ _ (careful_fops t) _ _ _ (sm_semi _ _ _ _ CX) C2 CR div_c)
            |apply (sim_vnormalized _ _ _ _ (careful_fops t) _ _ _ (sm_semi _ _ _ _ RX) X2 XR careful_divx)]; fx..|].
    intros x y. apply outv. intros i Hi. replace 0%Z with (k - k)%Z by lia. apply (x_div_all (fprec t)); [now apply (get1 n (fun _ => k))|exact N].
Qed.
Print Assumptions C98_norm.

(** ** Determinant, cofactors and inverse *)
Section Field.
Context {t : float_type} {S : Type} (c : cfg) (d : ety S (float t)).
Notation FL := (float t).
Notation AR := (float_arith t).
Notation XA := (x_arith (fprec t)).
Notation bm := (map (map (@B2R (fprec t) (femax t)))).
Notation PD := (p_det XA (x_div (fprec t)) x_iz).
Definition xd : ety unit R := Ety (fun _ s => s) (e_copy d).
Lemma xd_alike : ety_alike (fun _ _ => True) Rl d xd.
Proof. split; [reflexivity|]. intros. exact I. Qed.
Definition FieldRel := C86_field S unit FL R (fun _ _ => True) Rl c d xd (careful_ops t) (xt_ops (t := t)) xd_alike careful_alike.
Lemma izf (x : FL) : o_is_zero (float_ops t (S:=S)) x = Beqb x (B754_zero false). Proof. reflexivity. Qed.
Lemma half' {B C} (Q : B -> C -> Prop) (mf mc : M S B) (mx : M unit C) p P x s s1 :
  mf s = (Ok p, s) -> sim true eq mc p -> alike (fun _ _ => True) Q mc mx -> sim true eq mx P -> mc s = (Ok x, s1) -> mf s = (Ok x, s) /\ Q x P.
Proof.
  intros H1 H2 H3 H4 Ex. pose proof (ok_run _ _ _ _ _ _ _ H2 Ex) as K. subst p. split; [exact H1|]. exact (alike_run Q mc mx P x s s1 Datatypes.tt H3 H4 Ex).
Qed.
Lemma det_half n (m : list (list FL)) x s s1 : 1 <= n -> n + n <= W c -> rect n n m -> Forall2 (Forall2 Rl) m (bm m) ->
  det c d (careful_ops t) n m s = (Ok x, s1) -> det c d (float_ops t) n m s = (Ok x, s) /\ Rl x (PD n (bm m)).
Proof.
  intros Hn HW R F. apply (half' Rl _ _ (det c xd (xt_ops (t := t)) n (bm m)) (p_det AR (Bdiv mode_NE) (fun x => Beqb x (B754_zero false)) n m)).
  - apply (det_p AR _ _ c d _ fex fdiv izf); assumption.
  - apply (det_s AR _ _ true c d _ careful_sim (fun x y _ => careful_div x y) (fun _ => eq_refl)); assumption.
  - apply FieldRel. exact F.
  - apply (det_s XA _ _ true c xd _ xt_sim (fun x y _ => xt_div x y) (fun _ => eq_refl)); [exact Hn|exact HW|now apply bm_rect].
Qed.
Lemma cof_half n (m : list (list FL)) i j x s s1 : 2 <= n -> n + n <= W c -> rect n n m -> Forall2 (Forall2 Rl) m (bm m) -> i < n -> j < n ->
  cofactor c d (careful_ops t) n m (i, j) s = (Ok x, s1) -> cofactor c d (float_ops t) n m (i, j) s = (Ok x, s) /\ Rl x (p_cof XA (x_div (fprec t)) x_iz n (bm m) i j).
Proof.
  intros Hn HW R F Hi Hj. apply (half' Rl _ _ (cofactor c xd (xt_ops (t := t)) n (bm m) (i, j)) (p_cof AR (Bdiv mode_NE) (fun x => Beqb x (B754_zero false)) n m i j)).
  - apply (cofactor_p AR _ _ c d _ fex fdiv izf); assumption.
  - apply (cofactor_s AR _ _ true c d _ careful_sim careful_div (fun _ => eq_refl)); assumption.
  - destruct FieldRel as (_ & K & _). exact (K n (i, j) _ _ F).
  - apply (cofactor_s XA _ _ true c xd _ xt_sim xt_div (fun _ => eq_refl)); auto. now apply bm_rect.
Qed.
Lemma inv_half n (m : list (list FL)) x s s1 : 1 <= n -> rect n n m -> Forall2 (Forall2 Rl) m (bm m) ->
  inverse c d (careful_ops t) n m s = (Ok x, s1) -> inverse c d (float_ops t) n m s = (Ok x, s) /\ opt_rel (mat_rel Rl) x (p_inverse XA (x_div (fprec t)) x_iz n (bm m)).
Proof.
  intros Hn R F. apply (half' (opt_rel (mat_rel Rl)) _ _ (inverse c xd (xt_ops (t := t)) n (bm m)) (p_inverse AR (Bdiv mode_NE) (fun x => Beqb x (B754_zero false)) n m)).
  - apply (inverse_p AR _ _ c d _ fex fdiv izf); assumption.
  - apply (inverse_s AR _ _ true c d _ careful_sim careful_div (fun _ => eq_refl)); assumption.
  - destruct FieldRel as (_ & _ & K & _). exact (K n _ _ F).
  - apply (inverse_s XA _ _ true c xd _ xt_sim xt_div (fun _ => eq_refl)); auto. now apply bm_rect.
Qed.
Lemma s2_mrel n f g (m p : list (list FL)) : scaled2 n n f g m p -> mrel XA srel n f g (bm m) (bm p).
Proof. intros H i j Hi Hj. now apply (get2 n n). Qed.
End Field.
Theorem C98_determinant : forall (t : float_type) S (c : cfg) (d : ety S (float t)) n (f g : nat -> Z) m m' (s : S),
  1 <= n -> n + n <= W c -> scaled2 n n f g m m' ->
  scales t (fun F => det c d (f_ops F) n m) (fun F => det c d (f_ops F) n m') (scaled (ztotal n f + ztotal n g)) s /\
  (forall i j, 2 <= n -> i < n -> j < n ->
     scales t (fun F => cofactor c d (f_ops F) n m (i, j)) (fun F => cofactor c d (f_ops F) n m' (i, j))
       (scaled (ztotal n f - f i + (ztotal n g - g j))) s).
Proof.
  intros t S c d n f g m m' s Hn HW Hm. destruct (mat_F _ _ _ _ _ _ Hm) as (R & R' & F & F'). split.
  - intros x y s1 s2 Ex Ey. cbn [f_ops float_fops careful_fops] in *.
    destruct (det_half c d n m x s s1 Hn HW R F Ex) as [E1 K1]. destruct (det_half c d n m' y s s2 Hn HW R' F' Ey) as [E2 K2].
    split; [exact E1|]. split; [exact E2|]. revert K1 K2. apply out1. apply (zdet_rel _ _ _ _ (x_graded (fprec t))); [exact Hn|now apply s2_mrel].
  - intros i j Hn2 Hi Hj x y s1 s2 Ex Ey. cbn [f_ops float_fops careful_fops] in *.
    destruct (cof_half c d n m i j x s s1 Hn2 HW R F Hi Hj Ex) as [E1 K1]. destruct (cof_half c d n m' i j y s s2 Hn2 HW R' F' Hi Hj Ey) as [E2 K2].
    split; [exact E1|]. split; [exact E2|]. revert K1 K2. apply out1. apply (zcof_rel _ _ _ _ (x_graded (fprec t))); auto. now apply s2_mrel.
Qed.
Print Assumptions C98_determinant.
Theorem C98_inverse : forall (t : float_type) S (c : cfg) (d : ety S (float t)) n (f g : nat -> Z) m m' (s : S),
  1 <= n -> scaled2 n n f g m m' ->
  scales t (fun F => inverse c d (f_ops F) n m) (fun F => inverse c d (f_ops F) n m')
    (fun x y => match x, y with
                | Some p, Some q => scaled2 n n (fun i => (- g i)%Z) (fun j => (- f j)%Z) p q
                | None, None => True
                | _, _ => False
                end) s.
Proof.
  intros t S c d n f g m m' s Hn Hm. destruct (mat_F _ _ _ _ _ _ Hm) as (R & R' & F & F').
  intros x y s1 s2 Ex Ey. cbn [f_ops float_fops careful_fops] in *.
  destruct (inv_half c d n m x s s1 Hn R F Ex) as [E1 K1]. destruct (inv_half c d n m' y s s2 Hn R' F' Ey) as [E2 K2].
  split; [exact E1|]. split; [exact E2|].
  pose proof (zinv_rel _ _ _ _ (x_graded (fprec t)) n f g _ _ Hn (s2_mrel n f g m m' Hm)) as Z.
  pose proof (fun q => p_inverse_rect (x_arith (fprec t)) (x_div (fprec t)) x_iz n (map (map B2R) m) q Hn (bm_rect n n m R)) as R1.
  pose proof (fun q => p_inverse_rect (x_arith (fprec t)) (x_div (fprec t)) x_iz n (map (map B2R) m') q Hn (bm_rect n n m' R')) as R2.
  revert Z K1 K2 R1 R2. generalize (p_inverse (x_arith (fprec t)) (x_div (fprec t)) x_iz n (map (map B2R) m)) as a.
  generalize (p_inverse (x_arith (fprec t)) (x_div (fprec t)) x_iz n (map (map B2R) m')) as b.
  intros b a Z K1 K2 R1 R2. destruct x as [x|], y as [y|], a as [a|], b as [b|]; cbn [opt_rel] in *; try contradiction; try exact I.
  apply (s2_intro n n _ _ x y a b K1 K2 (R1 a eq_refl) (R2 b eq_refl)). intros i j Hi Hj. exact (Z i j Hi Hj).
Qed.
Print Assumptions C98_inverse.

(** ** Powers *)
Theorem C98_pow : forall (t : float_type) S (c : cfg) (d : ety S (float t)) n (f : nat -> Z) k m m' e (s : S),
  n < W c -> scaled2 n n (fun i => (f i + k)%Z) (fun j => (- f j)%Z) m m' ->
  scales t (fun F => mpow c d (f_ops F) n m e) (fun F => mpow c d (f_ops F) n m' e)
    (scaled2 n n (fun i => (f i + Z.of_nat e * k)%Z) (fun j => (- f j)%Z)) s.
Proof.
  intros t S c d n f k m m' e s HW Hm. pose proof (x_graded (fprec t)) as G.
  destruct (mat_F _ _ _ _ _ _ Hm) as (R & R' & F & F').
  set (A := x_arith (fprec t)) in *. set (mx := fun p q => (m_mul A n n n (fst p) (fst q), m_mul A n n n (snd p) (snd q))).
  set (P := pnum_pow mx (m_id A n, m_id A n) (map (map B2R) m, map (map B2R) m') e).
  assert (E1 : fst P = pnum_pow (m_mul A n n n) (m_id A n) (map (map B2R) m) e) by (apply (pow_hom fst); reflexivity).
  assert (E2 : snd P = pnum_pow (m_mul A n n n) (m_id A n) (map (map B2R) m') e) by (apply (pow_hom snd); reflexivity).
  assert (K : rect n n (fst P) /\ rect n n (snd P) /\ forall i j, i < n -> j < n -> srel (f i + Z.of_nat e * k + - f j) (at2 A (fst P) i j) (at2 A (snd P) i j)).
  { apply (pow_ind_e mx _ _ e (fun e p => rect n n (fst p) /\ rect n n (snd p) /\ forall i j, i < n -> j < n -> srel (f i + Z.of_nat e * k + - f j) (at2 A (fst p) i j) (at2 A (snd p) i j))).
    - intros a b p q _ _ _ (_ & _ & Hp) (_ & _ & Hq). unfold mx. cbn [fst snd]. split; [apply mat_rect|]. split; [apply mat_rect|]. intros i j Hi Hj.
      unfold m_mul. rewrite !at2_mat by assumption. apply (zg_sum _ _ _ _ G). intros l Hl.
      apply (zg_mul' _ _ _ _ G) with (b1 := (f i + Z.of_nat a * k + - f l)%Z) (b2 := (f l + Z.of_nat b * k + - f j)%Z); [lia|now apply Hp|now apply Hq].
    - intros _. cbn [fst snd]. split; [apply mat_rect|]. split; [apply mat_rect|]. intros i j Hi Hj. unfold m_id. rewrite !at2_mat by assumption.
      destruct (Nat.eqb_spec i j) as [->|]; [|apply (zg_zero _ _ _ _ G)]. replace (f j + Z.of_nat 0 * k + - f j)%Z with 0%Z by lia. apply (zg_one _ _ _ _ G).
    - intros _. cbn [fst snd]. split; [now apply bm_rect|]. split; [now apply bm_rect|]. intros i j Hi Hj.
      replace (f i + Z.of_nat 1 * k + - f j)%Z with (f i + k + - f j)%Z by lia. exact (get2 n n _ _ m m' i j Hm Hi Hj). }
  clearbody P. destruct K as (K1 & K2 & K3).
  eapply (both (Forall2 (Forall2 Rl)) (Forall2 (Forall2 eq))); [apply Forall2_eq2_inv|run3 @sim_mpow..|]. intros x y Hx Hy.
  apply (s2_intro n n _ _ x y (fst P) (snd P)); [rewrite E1; exact Hx|rewrite E2; exact Hy|exact K1|exact K2|exact K3].
Qed.
Print Assumptions C98_pow.

(** ** Sums cannot underflow: finite results are enough *)
Section Sum.
Context {t : float_type}.
Lemma fin_plus (x y : float t) : finite (Bplus mode_NE x y) -> finite x /\ finite y.
Proof. destruct x as [[]|[]| |[]], y as [[]|[]| |[]]; cbn; intros H; try discriminate H; now split. Qed.
Lemma sum_Rl n (f : nat -> float t) : (forall i, i < n -> finite (f i)) -> finite (sum (float_arith t) n f) ->
  Rl (sum (float_arith t) n f) (sum (x_arith (fprec t)) n (fun i => B2R (f i))).
Proof.
  induction n as [|n IH]; intros Hf HF; [apply Rl_zero|]. rewrite sum_S in HF |- *. rewrite sum_S. cbn [float_arith fl_arith a_add] in HF |- *.
  destruct (fin_plus _ _ HF) as [H1 H2]. pose proof (IH (fun i Hi => Hf i (Nat.lt_lt_succ_r _ _ Hi)) H1) as R1.
  destruct (plus_when _ _ _ _ R1 (Logic.conj H2 eq_refl)) as [_ V]. split; [exact HF|]. now apply V.
Qed.
End Sum.
Theorem C98_sum : forall (t : float_type) S n k v v' (s : S), scaled1 n (fun _ => k) v v' ->
  exists x y, vsum (float_ops t) n v s = (Ok x, s) /\ vsum (float_ops t) n v' s = (Ok y, s) /\ (finite x -> finite y -> scaled k x y).
Proof.
  intros t S n k v v' s Hv. destruct (s1_len _ _ _ _ Hv) as [L L']. do 2 eexists. split; [exact (sumv _ _ fse n v s L)|]. split; [exact (sumv _ _ fse n v' s L')|].
  intros Fx Fy. destruct Hv as (_ & _ & H). unfold v_sum in *.
  assert (Rx := sum_Rl n (at1 (float_arith t) v) (fun i Hi => proj1 (H i Hi)) Fx). assert (Ry := sum_Rl n (at1 (float_arith t) v') (fun i Hi => proj1 (proj2 (H i Hi))) Fy).
  revert Rx Ry. apply out1. apply (zg_sum _ _ _ _ (x_graded (fprec t))). intros i Hi. apply H, Hi.
Qed.
Print Assumptions C98_sum.

(** A 4 x 4 matrix, with a zero, whose rows and columns are scaled by different powers of two: both
    runs of the determinant and of the inverse succeed in careful arithmetic.  And why the arithmetic
    has to be careful: the square of 2^-600 is zero in f64, the square of 1 is not. *)
Definition fz98 (z e : Z) : float F64 := binary_normalize (fprec F64) (femax F64) _ _ mode_NE z e false.
Definition z98 (i j : nat) : Z := if i =? j then 7 + Z.of_nat i else if (i =? 2) && (j =? 0) then 0 else Z.of_nat (i + 2 * j) - 3.
Definition f98 (i : nat) : Z := nth i [3; -200; 0; 5]%Z 0%Z.
Definition g98 (j : nat) : Z := nth j [100; 0; -4; 2]%Z 0%Z.
Definition m98 : list (list (float F64)) := mat 4 4 (fun i j => fz98 (z98 i j) 0).
Definition p98 : list (list (float F64)) := mat 4 4 (fun i j => fz98 (z98 i j) (f98 i + g98 j)).
Definition sc98 (k : Z) (x y : float F64) : bool :=
  match x, y with
  | B754_zero _, B754_zero _ => true
  | B754_finite s m e _, B754_finite s' m' e' _ => eqb s s' && (m =? m')%positive && (e' =? k + e)%Z
  | _, _ => false
  end.
Lemma sc98_ok k x y : sc98 k x y = true -> scaled k x y.
Proof.
  destruct x as [s|s| |s m e h], y as [s'|s'| |s' m' e' h']; cbn [sc98]; try discriminate.
  - intros _. split; [reflexivity|]. split; [reflexivity|]. cbn [B2R]. ring.
  - intros H. apply andb_prop in H. destruct H as [H H3]. apply andb_prop in H. destruct H as [H1 H2].
    apply eqb_prop in H1. apply Pos.eqb_eq in H2. apply Z.eqb_eq in H3. subst s' m' e'.
    split; [reflexivity|]. split; [reflexivity|]. cbn [B2R]. unfold F2R. cbn [Fnum Fexp]. rewrite bpow_plus. ring.
Qed.
Lemma careful_id S (c : cfg) (d : ety S (float F64)) n s : midentity c d (careful_ops F64) n s = (Ok (mat n n (fun i j => if i =? j then Bone else B754_zero false)), s).
Proof. unfold midentity. now rewrite (mgenerate_pure c d n n _ (fun i j => if i =? j then (Bone : float F64) else B754_zero false)) by (intros i j s0 _ _; now destruct (i =? j)). Qed.
Definition ok_inverse {S} (r : res (option (list (list (float F64)))) * S) : bool := match fst r with Ok (Some _) => true | _ => false end.
Definition ok_det {S} (r : res (float F64) * S) : bool := match fst r with Ok _ => true | _ => false end.
Example C98_ex : forall S (c : cfg) (d : ety S (float F64)) (s : S),
  scaled2 4 4 f98 g98 m98 p98 /\
  ok_det (det c d (careful_ops F64) 4 m98 s) = true /\ ok_det (det c d (careful_ops F64) 4 p98 s) = true /\
  ok_inverse (inverse c d (careful_ops F64) 4 m98 s) = true /\ ok_inverse (inverse c d (careful_ops F64) 4 p98 s) = true /\
  (let v := [fz98 1 (-600)] in let w := [fz98 1 0] in
   scaled1 1 (fun _ => 600%Z) v w /\ vdot (float_ops F64) 1 v v s = (Ok (B754_zero false), s) /\ vdot (float_ops F64) 1 w w s = (Ok (fz98 1 0), s) /\
   vdot (careful_ops F64) 1 v v s = (Panic, s)).
Proof.
  intros S c d s. split; [|split; [|split; [|split; [|split; [|split; [|split; [|split]]]]]]].
  - split; [reflexivity|]. split; [reflexivity|]. split; [intros i Hi; now destruct i as [|[|[|[|i]]]]; [split|split|split|split|lia]|].
    intros i j Hi Hj. destruct i as [|[|[|[|i]]]]; [| | | |lia]; (destruct j as [|[|[|[|j]]]]; [| | | |lia]);
    apply sc98_ok; vm_compute; reflexivity.
  - change (ok_det (det_big c d (careful_ops F64) 4 m98 (cof_big c d (careful_ops F64) 4 (det c d (careful_ops F64) 3) m98) s) = true).
    unfold det_big, bind at 1. rewrite mclone_id by (apply mat_rect || apply faithful_c). vm_compute. reflexivity.
  - change (ok_det (det_big c d (careful_ops F64) 4 p98 (cof_big c d (careful_ops F64) 4 (det c d (careful_ops F64) 3) p98) s) = true).
    unfold det_big, bind at 1. rewrite mclone_id by (apply mat_rect || apply faithful_c). vm_compute. reflexivity.
  - change (ok_inverse (inv_big c d (careful_ops F64) 4 m98 s) = true). unfold inv_big, bind at 1. rewrite mclone_id by (apply mat_rect || apply faithful_c).
    unfold bind at 1. rewrite careful_id. vm_compute. reflexivity.
  - change (ok_inverse (inv_big c d (careful_ops F64) 4 p98 s) = true). unfold inv_big, bind at 1. rewrite mclone_id by (apply mat_rect || apply faithful_c).
    unfold bind at 1. rewrite careful_id. vm_compute. reflexivity.
  - split; [reflexivity|]. split; [reflexivity|]. intros i Hi. replace i with 0 by lia. cbn [nth].
    apply sc98_ok; vm_compute; reflexivity.
  - vm_compute. reflexivity.
  - rewrite (dotv _ _ fse) by reflexivity. f_equal. f_equal. apply B2SF_inj. vm_compute. reflexivity.
  - vm_compute. reflexivity.
Qed.
