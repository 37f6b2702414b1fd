(** * PropsIntDiv.v - theorems for C77 (integer vectors and matrices divided by a scalar) and C78
    (inverses of integer matrices). *)
From Coq Require Import List Arith Bool Lia ZArith Ring.
From Verif Require Import Rust Iter Elem VectorM MatIterM MatrixM ArithM OpsM IntM SpecCommon SpecAlg Harness.
From Verif Require Import IterProofs OwnProofs ChunkProofs VecProofs MatProofs AccProofs Sim Algebra PropsAlg PropsCross DetSmall DetLoop OpsPure PropsInt PropsDetInt.
Import ListNotations.

(** ** Division *)
Lemma div_ok {S} t x y (s : S) : in_range t x -> in_range t y -> y <> 0%Z -> ~ (x = i_lo t /\ y = (-1)%Z) ->
  int_div t x y s = (Ok (Z.quot x y), s).
Proof.
  intros Hx Hy Y N. unfold int_div. rewrite (proj2 (Z.eqb_neq y 0) Y). cbv zeta.
  replace ((i_lo t <=? x ÷ y) && (x ÷ y <? i_hi t))%Z with true; [reflexivity|]. symmetry. apply in_range_b.
  pose proof (i_bits_pos t) as Hb. unfold in_range, i_lo, i_hi in *. destruct (i_signed t).
  - set (p := (2 ^ (i_bits t - 1))%Z) in *. assert (Hp : (0 < p)%Z) by (apply Z.pow_pos_nonneg; lia).
    pose proof (Z.quot_rem' x y) as E. pose proof (Z.rem_bound_abs x y Y) as B.
    destruct (Z.eq_dec y 1) as [->|Y1]; [rewrite Z.quot_1_r; lia|]. destruct (Z.eq_dec y (-1)) as [->|Y2].
    + change (-1)%Z with (- (1))%Z. rewrite Z.quot_opp_r, Z.quot_1_r by lia. lia.
    + assert (H : (Z.abs (x ÷ y) * 2 <= Z.abs x)%Z); [|lia].
      rewrite <- Z.quot_abs by exact Y. assert (2 <= Z.abs y)%Z by lia.
      pose proof (Z.mul_quot_le (Z.abs x) (Z.abs y) ltac:(lia) ltac:(lia)). pose proof (Z.quot_pos (Z.abs x) (Z.abs y) ltac:(lia) ltac:(lia)). nia.
  - split; [apply Z.quot_pos; lia|]. destruct (Z.eq_dec y 1) as [->|Y1]; [rewrite Z.quot_1_r; lia|].
    destruct (Z.eq_dec x 0) as [->|X0]; [rewrite Z.quot_0_l by exact Y; lia|]. pose proof (Z.quot_lt x y ltac:(lia) ltac:(lia)). lia.
Qed.
Lemma div_zero {S} t x (s : S) : int_div t x 0 s = (Panic, s).
Proof. reflexivity. Qed.
Lemma div_min {S} t (s : S) : in_range t (-1) -> int_div t (i_lo t) (-1) s = (Panic, s).
Proof.
  intros H. unfold int_div. cbn [Z.eqb]. cbv zeta. replace ((i_lo t <=? i_lo t ÷ -1) && (i_lo t ÷ -1 <? i_hi t))%Z with false; [reflexivity|].
  symmetry. apply not_true_is_false. intros E. apply in_range_b in E. change (-1)%Z with (- (1))%Z in *. rewrite Z.quot_opp_r, Z.quot_1_r in E by lia.
  unfold in_range, i_lo, i_hi in *. destruct (i_signed t); lia.
Qed.
(** An item panics, the others return or panic: the traversal panics. *)
Lemma unwind_panics {S A B} uw (f : A -> M S B) l x : In x l -> (forall s, exists s', f x s = (Panic, s')) ->
  (forall y s, In y l -> (exists z s', f y s = (Ok z, s')) \/ (exists s', f y s = (Panic, s'))) ->
  forall s, exists s', in_order_unwind uw f l s = (Panic, s').
Proof.
  intros Hx Px. induction l as [|y l IH]; intros Hl s; [destruct Hx|]. cbn [in_order_unwind].
  destruct (Hl y s (or_introl eq_refl)) as [(z & s1 & E)|(s1 & E)]; rewrite E; [|eauto].
  destruct Hx as [->|Hx]; [destruct (Px s) as [s2 E2]; rewrite E2 in E; discriminate|].
  destruct (IH Hx (fun y s H => Hl y s (or_intror H)) s1) as [s2 ->]. eauto.
Qed.
Lemma unwind_total {S A B} uw (f : A -> M S B) l :
  (forall y s, In y l -> (exists z s', f y s = (Ok z, s')) \/ (exists s', f y s = (Panic, s'))) ->
  forall s, (exists z s', in_order_unwind uw f l s = (Ok z, s')) \/ (exists s', in_order_unwind uw f l s = (Panic, s')).
Proof.
  induction l as [|y l IH]; intros Hl s; cbn [in_order_unwind]; [left; eauto|].
  destruct (Hl y s (or_introl eq_refl)) as [(z & s1 & E)|(s1 & E)]; rewrite E; [|eauto].
  destruct (IH (fun y s H => Hl y s (or_intror H)) s1) as [(zs & s2 & ->)|[s2 ->]]; eauto.
Qed.
Lemma div_total {S} t x y (s : S) : (exists z s', int_div t x y s = (Ok z, s')) \/ (exists s', int_div t x y s = (Panic, s')).
Proof. unfold int_div. destruct (y =? 0)%Z; [right; now exists s|]. cbv zeta. destruct (_ && _); [left|right]; eexists; try eexists; reflexivity. Qed.

(** ** C77 *)
(** [v / y] on integers, with or without overflow checks: the quotients, truncated towards
    zero; a panic when [y] is 0 (and [v] is not empty) or when the quotient MIN / -1 overflows. *)
Theorem C77_vector :
  forall S (c : cfg) (d : ety S Z) (t : ity) debug n (a : list Z) y (s : S),
  length a = n -> n < W c -> v_in_range t a -> in_range t y ->
  let r := vscale c d d n (o_div (int_ops debug t)) (o_clone (int_ops debug t)) a y s in
  (y <> 0%Z -> (forall x, In x a -> ~ (x = i_lo t /\ y = (-1)%Z)) -> r = (Ok (map (fun x => Z.quot x y) a), s)) /\
  (y = 0%Z -> a <> [] -> exists s', r = (Panic, s')) /\
  (y = (-1)%Z -> In (i_lo t) a -> exists s', r = (Panic, s')).
Proof.
  intros S c d t debug n a y s L HW Ra Ry r. unfold r. rewrite vscale_spec by assumption.
  change (fun e => bind (o_clone (int_ops debug t) y) (fun r => o_div (int_ops debug t) e r)) with (fun e => int_div (S := S) t e y).
  assert (Tot : forall x s0, In x a -> (exists z s', int_div (S := S) t x y s0 = (Ok z, s')) \/ (exists s', int_div (S := S) t x y s0 = (Panic, s')))
    by (intros x s0 _; apply div_total).
  split; [|split].
  - intros Y N. apply unwind_pure. intros x s0 Hx. apply div_ok; auto. unfold v_in_range in Ra. rewrite Forall_forall in Ra. auto.
  - intros -> Na. destruct a as [|x a]; [congruence|]. apply (unwind_panics _ _ _ x); [now left| |exact Tot].
    intros s0. exists s0. reflexivity.
  - intros -> Hin. apply (unwind_panics _ _ _ (i_lo t)); [exact Hin| |exact Tot]. intros s0. exists s0. now apply div_min.
Qed.
Print Assumptions C77_vector.
Theorem C77_matrix :
  forall S (c : cfg) (d : ety S Z) (t : ity) debug row col (m : list (list Z)) y (s : S),
  rect row col m -> row < W c -> col < W c -> m_in_range t m -> in_range t y ->
  let r := mscale c d row col (o_div (int_ops debug t)) (o_clone (int_ops debug t)) m y s in
  let r' := mscale_ref c d row col (o_div (int_ops debug t)) m y s in
  (y <> 0%Z -> (forall v x, In v m -> In x v -> ~ (x = i_lo t /\ y = (-1)%Z)) ->
   r = (Ok (map (map (fun x => Z.quot x y)) m), s) /\ r' = (Ok (map (map (fun x => Z.quot x y)) m), s)) /\
  (y = 0%Z -> 0 < row -> 0 < col -> (exists s', r = (Panic, s')) /\ (exists s', r' = (Panic, s'))) /\
  (y = (-1)%Z -> (exists v, In v m /\ In (i_lo t) v) -> (exists s', r = (Panic, s')) /\ (exists s', r' = (Panic, s'))).
Proof.
  intros S c d t debug row col m y s R H1 H2 Rm Ry r r'.
  set (g := fun v s => in_order_unwind (drop_all d) (fun e => int_div t e y) v s).
  assert (Er : r = in_order_unwind (drop_all (vec_ety d)) g m s) by (unfold r; now rewrite mscale_spec).
  assert (Er' : r' = in_order_unwind (drop_all (vec_ety d)) g m s) by (unfold r'; now rewrite mscale_ref_spec).
  rewrite Er, Er'. clear r r' Er Er'.
  assert (Tg : forall v s0, (exists z s', g v s0 = (Ok z, s')) \/ (exists s', g v s0 = (Panic, s'))).
  { intros v s0. apply unwind_total. intros x s1 _. apply div_total. }
  assert (Pg : forall v x, In v m -> In x v -> (forall s0 : S, int_div t x y s0 = (Panic, s0)) ->
    exists s', in_order_unwind (drop_all (vec_ety d)) g m s = (Panic, s')).
  { intros v x Hv Hx Px. apply (unwind_panics _ _ _ v Hv); [|intros v0 s0 _; apply Tg].
    intros s0. unfold g. apply (unwind_panics _ _ _ x Hx); [intros s1; exists s1; apply Px|intros; apply div_total]. }
  unfold m_in_range in Rm. rewrite Forall_forall in Rm. split; [|split].
  - intros Y N. assert (E : in_order_unwind (drop_all (vec_ety d)) g m s = (Ok (map (map (fun x => Z.quot x y)) m), s)); [|now split].
    apply unwind_pure. intros v s0 Hv. unfold g. apply unwind_pure. intros x s1 Hx. apply div_ok; eauto.
    specialize (Rm v Hv). rewrite Forall_forall in Rm. auto.
  - intros -> P1 P2. destruct R as [R1 R2]. destruct m as [|v m]; [cbn in R1; lia|]. inversion R2 as [|? ? Lv _]; subst.
    destruct v as [|x v]; [cbn in P2; lia|]. assert (E := Pg (x :: v) x (or_introl eq_refl) (or_introl eq_refl) (fun s0 => eq_refl)). now split.
  - intros -> (v & Hv & Hx). assert (E := Pg v (i_lo t) Hv Hx (fun s0 => div_min t s0 Ry)). now split.
Qed.
Print Assumptions C77_matrix.
Lemma bits8 : (0 < 8)%Z. Proof. reflexivity. Qed.
Definition i8' : ity := Ity true 8 bits8.
(** i8: [-7, 7, -128] / 2 = [-3, 3, -64]; dividing by -1 overflows on -128 and panics. *)
Example C77_ex : forall (c : cfg) (d : ety unit Z) debug,
  vscale c d d 3 (o_div (int_ops debug i8')) (o_clone (int_ops debug i8')) [-7; 7; -128]%Z 2%Z tt = (Ok [-3; 3; -64]%Z, tt) /\
  (exists s', vscale c d d 3 (o_div (int_ops debug i8')) (o_clone (int_ops debug i8')) [-7; 7; -128]%Z (-1)%Z tt = (Panic, s')).
Proof.
  intros c d debug. pose proof (W_gt c).
  assert (R : v_in_range i8' [-7; 7; -128]%Z) by (repeat constructor; cbn; lia). split.
  - destruct (C77_vector unit c d i8' debug 3 [-7; 7; -128]%Z 2%Z tt eq_refl ltac:(lia) R) as [H1 _]; [split; cbn; lia|].
    rewrite H1; [reflexivity|lia|]. intros x _ [_ ?]. lia.
  - destruct (C77_vector unit c d i8' debug 3 [-7; 7; -128]%Z (-1)%Z tt eq_refl ltac:(lia) R) as (_ & _ & H1); [split; cbn; lia|].
    apply H1; [reflexivity|]. cbn. tauto.
Qed.

(** ** C78 *)
(** Specification: the adjugate, and the adjugate divided by the determinant with truncating
    division. *)
Definition z_adj (n : nat) (m : list (list Z)) : list (list Z) :=
  mat n n (fun i j => (sign z_arith (i + j) * m_det z_arith (n - 1) (minor j i m))%Z).
Definition z_inv (n : nat) (m : list (list Z)) : option (list (list Z)) :=
  if (m_det z_arith n m =? 0)%Z then None else Some (map (map (fun x => Z.quot x (m_det z_arith n m))) (z_adj n m)).
(** [x] is the two-sided inverse of [m] over the integers. *)
Definition z_inverse (n : nat) (m x : list (list Z)) : Prop :=
  rect n n x /\ m_mul z_arith n n n m x = m_id z_arith n /\ m_mul z_arith n n n x m = m_id z_arith n.

Lemma row3 {X} (l : list X) : length l = 3 -> exists a b c, l = [a; b; c].
Proof. destruct l as [|a [|b [|c [|]]]]; try discriminate. eauto. Qed.
Lemma row2 {X} (l : list X) : length l = 2 -> exists a b, l = [a; b].
Proof. destruct l as [|a [|b [|]]]; try discriminate. eauto. Qed.
Lemma rect3 {X} (m : list (list X)) : rect 3 3 m -> exists a b c d e f g h i, m = [[a; b; c]; [d; e; f]; [g; h; i]].
Proof.
  intros [L F]. destruct (row3 m L) as (u & v & w & ->). inversion F as [|? ? H1 F1]; subst. inversion F1 as [|? ? H2 F2]; subst. inversion F2 as [|? ? H3 _]; subst.
  destruct (row3 u H1) as (? & ? & ? & ->), (row3 v H2) as (? & ? & ? & ->), (row3 w H3) as (? & ? & ? & ->). repeat eexists.
Qed.
Lemma rect2 {X} (m : list (list X)) : rect 2 2 m -> exists a b c d, m = [[a; b]; [c; d]].
Proof.
  intros [L F]. destruct (row2 m L) as (u & v & ->). inversion F as [|? ? H1 F1]; subst. inversion F1 as [|? ? H2 _]; subst.
  destruct (row2 u H1) as (? & ? & ->), (row2 v H2) as (? & ? & ->). repeat eexists.
Qed.
Lemma rect1 {X} (m : list (list X)) : rect 1 1 m -> exists a, m = [[a]].
Proof.
  intros [L F]. destruct m as [|u [|]]; try discriminate. inversion F as [|? ? H1 _]; subst. destruct u as [|a [|]]; try discriminate. eauto.
Qed.
Ltac explicit n m R :=
  destruct n as [|[|[|[|n]]]]; [lia|destruct (rect1 m R) as (? & ->)|destruct (rect2 m R) as (? & ? & ? & ? & ->)|
    destruct (rect3 m R) as (? & ? & ? & ? & ? & ? & ? & ? & ? & ->)|lia].
Ltac zcalc := cbv [m_det minor del sum sign mat vec m_mul m_id det_1 det_2 det_3 at2 seq map fold_left firstn skipn app nth Nat.even Nat.add Nat.sub Nat.eqb Nat.leb
  a_zero a_one a_add a_sub a_mul a_neg z_arith].

(** The method computes it. *)
Lemma p_inv_z n m : 1 <= n <= 3 -> rect n n m -> p_inverse z_arith Z.quot (fun x => (x =? 0)%Z) n m = z_inv n m.
Proof.
  intros Hn R. unfold z_inv.
  assert (ED : m_det z_arith n m = match n with 1 => det_1 z_arith m | 2 => det_2 z_arith m | _ => det_3 z_arith m end).
  { explicit n m R; zcalc; ring. }
  rewrite ED. explicit n m R; cbn [p_inverse].
  - cbv zeta. change (at2 z_arith [[x]] 0 0) with (det_1 z_arith [[x]]). destruct (det_1 z_arith [[x]] =? 0)%Z; [reflexivity|]. reflexivity.
  - cbv zeta. destruct (_ =? 0)%Z; [reflexivity|]. do 2 f_equal. unfold z_adj. zcalc. repeat (f_equal; try ring).
  - cbv zeta. destruct (_ =? 0)%Z; [reflexivity|]. do 2 f_equal. unfold z_adj, p_ms. zcalc. repeat (f_equal; try ring).
Qed.

Section Checked.
Context {S : Type}.
Variable t : ity.
Hypothesis Hb : (1 < i_bits t)%Z.
Variable c : cfg.
Variable d : ety S Z.
Let o : ops S Z := int_ops true t.
Let H : sim_ring true (Rchk t) o z_arith := int_sim_checked t (rng1 t Hb) (rng0 t).
Let HS := sm_semi _ _ _ _ H.
Lemma sim_div x y x' y' : Rchk t x x' -> Rchk t y y' -> sim true (Rchk t) (o_div o x y) (Z.quot x' y').
Proof.
  intros [<- _] [<- _] s. cbn [o o_div int_ops]. unfold int_div. destruct (y =? 0)%Z; [right; split; [reflexivity|now exists s]|]. cbv zeta.
  destruct (_ && _) eqn:E; [left|right; split; [reflexivity|now exists s]]. exists (Z.quot x y). split; [reflexivity|]. split; [reflexivity|]. now apply in_range_b.
Qed.
Notation RM := (Forall2 (Forall2 (Rchk t))).
Definition RO (a b : option (list (list Z))) : Prop := match a, b with None, None => True | Some x, Some y => RM x y | _, _ => False end.
Ltac idx_step := eapply sim_bind; [apply (sim_idx true (Rchk t) c o z_arith H); [eassumption|assumption|lia|lia]|intros ? ?].
Lemma sim_ms m m' i1 j1 i2 j2 i3 j3 i4 j4 : RM m m' -> rect 3 3 m -> i1 < 3 -> j1 < 3 -> i2 < 3 -> j2 < 3 -> i3 < 3 -> j3 < 3 -> i4 < 3 -> j4 < 3 ->
  sim true (Rchk t) (ms c o m i1 j1 i2 j2 i3 j3 i4 j4) (p_ms z_arith m' i1 j1 i2 j2 i3 j3 i4 j4).
Proof.
  intros Hm Rm ? ? ? ? ? ? ? ?. unfold ms, p_ms. do 2 idx_step. eapply sim_bind; [apply (sm_mul _ _ _ _ HS); eassumption|intros ? ?].
  do 2 idx_step. eapply sim_bind; [apply (sm_mul _ _ _ _ HS); eassumption|intros ? ?]. apply (sm_sub _ _ _ _ H); assumption.
Qed.
Lemma sim_quot n m m' x x' : RM m m' -> Rchk t x x' -> rect n n m -> n < W c ->
  sim true RM (mscale c d n n (o_div o) (o_clone o) m x) (map (map (fun e => Z.quot e x')) m').
Proof.
  intros Hm Hx Rm Hn. assert (Rm' : rect n n m') by (eapply rect_F2; eassumption).
  replace (map (map (fun e => Z.quot e x')) m') with (mat n n (fun i j => Z.quot (at2 z_arith m' i j) x')).
  - refine (sim_mscale true (Rchk t) c d z_arith (o_div o) Z.quot _ (o_clone o) n n m m' x x' _ Hm Hx Rm Hn Hn); [|apply HS].
    intros. now apply sim_div.
  - transitivity (map (map (fun e => Z.quot e x')) (mat n n (at2 z_arith m'))); [|now rewrite (mat_at2 z_arith n n m' Rm')].
    unfold mat, vec. rewrite map_map. apply map_ext. intros i. now rewrite map_map.
Qed.
Lemma sim_finish n rows rows' x x' : n < W c -> rect n n rows -> RM rows rows' -> Rchk t x x' ->
  sim true RO (mm <- mnew c d n rows ;; r <- mscale c d n n (o_div o) (o_clone o) mm x ;; ret (Some r))
    (Some (map (map (fun e => Z.quot e x')) rows')).
Proof.
  intros Hn Rr Hr Hx. eapply sim_ext with (m' := r <- mscale c d n n (o_div o) (o_clone o) rows x ;; ret (Some r)); [|reflexivity|].
  - intros s. unfold bind at 1. now rewrite mnew_spec by (apply Rr || exact Hn).
  - eapply sim_bind; [apply sim_quot; eassumption|]. intros a Ha. now apply sim_ret.
Qed.
Lemma sim_inverse n m m' : 1 <= n <= 3 -> RM m m' -> rect n n m -> sim true RO (inverse c d o n m) (p_inverse z_arith Z.quot (fun x => (x =? 0)%Z) n m').
Proof.
  intros Hn Hm Rm. pose proof (W_gt c) as HW. destruct n as [|[|[|[|n]]]]; try lia; cbn [inverse p_inverse].
  - unfold inv1. idx_step. destruct H0 as [-> Hx]. cbv zeta. cbn [o_is_zero o int_ops]. destruct (_ =? 0)%Z; [now apply sim_ret|].
    eapply sim_bind; [apply sim_div; [apply HS|split; [reflexivity|exact Hx]]|]. intros q Hq.
    intros s. left. eexists. unfold bind. rewrite mnew_spec by (reflexivity || lia). split; [reflexivity|]. cbn [RO]. constructor; [constructor; [exact Hq|constructor]|constructor].
  - unfold inv2. eapply sim_bind; [apply (sim_det2 true (Rchk t) c o z_arith H); eassumption|]. intros x Hx. cbv zeta.
    change (o_is_zero o x) with (x =? 0)%Z. rewrite (proj1 Hx) at 1. destruct (_ =? 0)%Z; [now apply sim_ret|].
    idx_step. idx_step. eapply sim_bind; [apply (sm_neg _ _ _ _ H); eassumption|intros ? ?]. idx_step. eapply sim_bind; [apply (sm_neg _ _ _ _ H); eassumption|intros ? ?]. idx_step.
    apply sim_finish; [lia|split; [reflexivity|repeat constructor]| |exact Hx]. repeat (constructor; try eassumption).
  - unfold inv3. eapply sim_bind; [apply (sim_det3 true (Rchk t) c o z_arith H); eassumption|]. intros x Hx. cbv zeta.
    change (o_is_zero o x) with (x =? 0)%Z. rewrite (proj1 Hx) at 1. destruct (_ =? 0)%Z; [now apply sim_ret|].
    do 9 (eapply sim_bind; [apply sim_ms; [eassumption|assumption|lia|lia|lia|lia|lia|lia|lia|lia]|intros ? ?]).
    apply sim_finish; [lia|split; [reflexivity|repeat constructor]| |exact Hx]. repeat (constructor; try eassumption).
Qed.
End Checked.
(** Restrictions: dimensions up to 3, arithmetic with overflow checks. The method returns exactly
    the adjugate divided by the determinant with truncating division ([None] when the determinant
    is 0), or panics. *)
Theorem C78_checked_partial :
  forall S (c : cfg) (d : ety S Z) t n m, 1 <= n <= 3 -> (1 < i_bits t)%Z -> rect n n m -> m_in_range t m ->
  exact_or_panics (S := S) (inverse c d (int_ops true t) n m) (z_inv n m).
Proof.
  intros S c d t n m Hn Hb R I s.
  destruct (sim_inverse t Hb c d n m m Hn (Rchk_m t m I) R s) as [(a & E & Ha)|P].
  - left. rewrite E. f_equal. f_equal. rewrite <- (p_inv_z n m Hn R). destruct a as [a|], (p_inverse _ _ _ n m) as [b|]; try reflexivity; [|destruct Ha|destruct Ha].
    f_equal. clear -Ha. cbn [RO] in Ha. induction Ha as [|r r' m m' Hr HR IH]; [reflexivity|]. apply Rchk_eqv in Hr. now subst.
  - right. exact (proj2 P).
Qed.
Print Assumptions C78_checked_partial.

(** Entries small enough that nothing overflows. *)
Section Bounded.
Context {S : Type}.
Variable t : ity.
Variable debug : bool.
Hypothesis Hsg : i_signed t = true.
Variable c : cfg.
Variable d : ety S Z.
Variable b : Z.
Hypothesis Hb1 : (1 <= b)%Z.
Hypothesis Hb3 : (6 * (b * b * b) < 2 ^ (i_bits t - 1))%Z.
Let o : ops S Z := int_ops debug t.
Definition bd (k x : Z) : Prop := (Z.abs x <= k)%Z.
Lemma bd_range k x : bd k x -> (k < 2 ^ (i_bits t - 1))%Z -> in_range t x.
Proof. unfold bd, in_range, i_lo, i_hi. rewrite Hsg. lia. Qed.
Lemma bd_mul j k x y : bd j x -> bd k y -> bd (j * k) (x * y).
Proof. unfold bd. intros. rewrite Z.abs_mul. nia. Qed.
Lemma bd_add j k x y : bd j x -> bd k y -> bd (j + k) (x + y).
Proof. unfold bd. lia. Qed.
Lemma bd_sub j k x y : bd j x -> bd k y -> bd (j + k) (x - y).
Proof. unfold bd. lia. Qed.
Lemma bd_neg k x : bd k x -> bd k (- x).
Proof. unfold bd. lia. Qed.
Lemma chk_fits k x (s : S) : bd k x -> (k < 2 ^ (i_bits t - 1))%Z -> chk debug t x s = (Ok x, s).
Proof. intros H1 H2. unfold chk. pose proof (bd_range k x H1 H2) as R. apply in_range_b in R. now rewrite R. Qed.
Definition fits (m : M S Z) (k x : Z) : Prop := bd k x /\ forall s, m s = (Ok x, s).
Lemma fits_mul j k x y : bd j x -> bd k y -> (j * k < 2 ^ (i_bits t - 1))%Z -> fits (o_mul o x y) (j * k) (x * y).
Proof. intros H1 H2 H3. pose proof (bd_mul _ _ _ _ H1 H2). split; [assumption|]. intros s. now apply chk_fits with (j * k)%Z. Qed.
Lemma fits_add j k x y : bd j x -> bd k y -> (j + k < 2 ^ (i_bits t - 1))%Z -> fits (o_add o x y) (j + k) (x + y).
Proof. intros H1 H2 H3. pose proof (bd_add _ _ _ _ H1 H2). split; [assumption|]. intros s. now apply chk_fits with (j + k)%Z. Qed.
Lemma fits_sub j k x y : bd j x -> bd k y -> (j + k < 2 ^ (i_bits t - 1))%Z -> fits (o_sub o x y) (j + k) (x - y).
Proof. intros H1 H2 H3. pose proof (bd_sub _ _ _ _ H1 H2). split; [assumption|]. intros s. now apply chk_fits with (j + k)%Z. Qed.
Lemma fits_neg k x : bd k x -> (k < 2 ^ (i_bits t - 1))%Z -> fits (o_neg o x) k (- x).
Proof. intros H1 H2. pose proof (bd_neg _ _ H1). split; [assumption|]. intros s. now apply chk_fits with k. Qed.
Lemma fits_bind m k x (f : Z -> M S Z) j y : fits m k x -> (bd k x -> fits (f x) j y) -> fits (bind m f) j y.
Proof. intros [B E] H. destruct (H B) as [B2 E2]. split; [exact B2|]. intros s. unfold bind. now rewrite E, E2. Qed.
Lemma bind_fits {X} m k x (f : Z -> M S X) s y : fits m k x -> (bd k x -> f x s = y) -> bind m f s = y.
Proof. intros [B E] H. unfold bind. rewrite E. auto. Qed.
Definition bounded_by (m : list (list Z)) : Prop := Forall (Forall (bd b)) m.
Lemma bd_at m i j : bounded_by m -> bd b (at2 z_arith m i j).
Proof.
  intros B. unfold at2. cbn [a_zero z_arith].
  destruct (Nat.lt_ge_cases i (length m)) as [Hi|Hi]; [|rewrite (nth_overflow m [] Hi); destruct j; unfold bd; cbn; lia].
  unfold bounded_by in B. rewrite Forall_forall in B. pose proof (B _ (nth_In m [] Hi)) as Bi. rewrite Forall_forall in Bi.
  destruct (Nat.lt_ge_cases j (length (nth i m []))) as [Hj|Hj]; [|rewrite (nth_overflow _ 0%Z Hj); unfold bd; cbn; lia].
  apply Bi. now apply nth_In.
Qed.
Lemma fits_idx n m i j : bounded_by m -> rect n n m -> i < n -> j < n -> fits (idx c o n m i j) b (at2 z_arith m i j).
Proof. intros B R Hi Hj. split; [now apply bd_at|]. intros s. exact (idx_spec c z_ops z_arith (z_exact S) n m i j s R Hi Hj). Qed.
Lemma b2_small : (2 * (b * b) < 2 ^ (i_bits t - 1))%Z. Proof. nia. Qed.
Lemma b_small : (b < 2 ^ (i_bits t - 1))%Z. Proof. nia. Qed.
Ltac ix := eapply fits_bind; [apply fits_idx; [assumption|assumption|lia|lia]|intros ?].
Lemma fits_det2 m : bounded_by m -> rect 2 2 m -> fits (det2 c o m) (b * b + b * b) (det_2 z_arith m).
Proof.
  intros B R. pose proof b2_small. unfold det2, det_2. ix. ix. eapply fits_bind; [apply (fits_mul b b); auto; nia|intros ?].
  ix. ix. eapply fits_bind; [apply (fits_mul b b); auto; nia|intros ?]. apply fits_sub; auto; lia.
Qed.
Lemma fits_ms m i1 j1 i2 j2 i3 j3 i4 j4 : bounded_by m -> rect 3 3 m -> i1 < 3 -> j1 < 3 -> i2 < 3 -> j2 < 3 -> i3 < 3 -> j3 < 3 -> i4 < 3 -> j4 < 3 ->
  fits (ms c o m i1 j1 i2 j2 i3 j3 i4 j4) (b * b + b * b) (p_ms z_arith m i1 j1 i2 j2 i3 j3 i4 j4).
Proof.
  intros B R ? ? ? ? ? ? ? ?. pose proof b2_small. unfold ms, p_ms. ix. ix. eapply fits_bind; [apply (fits_mul b b); auto; nia|intros ?].
  ix. ix. eapply fits_bind; [apply (fits_mul b b); auto; nia|intros ?]. apply fits_sub; auto; lia.
Qed.
Lemma fits_term m i1 j1 i2 j2 i3 j3 : bounded_by m -> rect 3 3 m -> i1 < 3 -> j1 < 3 -> i2 < 3 -> j2 < 3 -> i3 < 3 -> j3 < 3 ->
  fits (term3 c o m i1 j1 i2 j2 i3 j3) (b * b * b) (at2 z_arith m i1 j1 * at2 z_arith m i2 j2 * at2 z_arith m i3 j3)%Z.
Proof.
  intros B R ? ? ? ? ? ?. pose proof b2_small. unfold term3. ix. ix. eapply fits_bind; [apply (fits_mul b b); auto; nia|intros ?].
  ix. apply (fits_mul (b * b) b); auto; nia.
Qed.
Lemma fits_det3 m : bounded_by m -> rect 3 3 m -> fits (det3 c o m) (b * b * b + b * b * b + b * b * b + b * b * b + b * b * b + b * b * b) (det_3 z_arith m).
Proof.
  intros B R. assert (0 <= b * b * b)%Z by nia. unfold det3, det_3. cbv zeta.
  eapply fits_bind; [apply fits_term; auto; lia|intros ?].
  eapply fits_bind; [apply fits_term; auto; lia|intros ?]. eapply fits_bind; [apply fits_add; eauto; lia|intros ?].
  eapply fits_bind; [apply fits_term; auto; lia|intros ?]. eapply fits_bind; [apply fits_add; eauto; lia|intros ?].
  eapply fits_bind; [apply fits_term; auto; lia|intros ?]. eapply fits_bind; [apply fits_sub; eauto; lia|intros ?].
  eapply fits_bind; [apply fits_term; auto; lia|intros ?]. eapply fits_bind; [apply fits_sub; eauto; lia|intros ?].
  eapply fits_bind; [apply fits_term; auto; lia|intros ?]. apply fits_sub; eauto; lia.
Qed.
Lemma scale_fits n m x k j s : rect n n m -> n < W c -> Forall (Forall (bd k)) m -> (k < 2 ^ (i_bits t - 1))%Z -> bd j x -> (j < 2 ^ (i_bits t - 1))%Z -> x <> 0%Z ->
  mscale c d n n (o_div o) (o_clone o) m x s = (Ok (map (map (fun e => Z.quot e x)) m), s).
Proof.
  intros R Hn Bm Hk Bx Hj Nx. rewrite Forall_forall in Bm.
  assert (Rm : m_in_range t m).
  { unfold m_in_range. rewrite Forall_forall. intros v Hv. rewrite Forall_forall. intros e He. apply bd_range with k; [|exact Hk].
    specialize (Bm v Hv). rewrite Forall_forall in Bm. auto. }
  destruct (C77_matrix S c d t debug n n m x s R Hn Hn Rm (bd_range j x Bx Hj)) as [H _]. apply H; [exact Nx|].
  intros v e Hv He [E _]. specialize (Bm v Hv). rewrite Forall_forall in Bm. specialize (Bm e He). unfold bd, i_lo in *. rewrite Hsg in E. lia.
Qed.
Lemma inverse_fits n m s : 1 <= n <= 3 -> bounded_by m -> rect n n m -> inverse c d o n m s = (Ok (z_inv n m), s).
Proof.
  intros Hn B R. rewrite <- p_inv_z by assumption. pose proof (W_gt c) as HW. pose proof b2_small as S2. pose proof b_small as S1. assert (0 <= b * b * b)%Z by nia.
  destruct n as [|[|[|[|n]]]]; try lia; cbn [inverse p_inverse].
  - unfold inv1. eapply bind_fits; [apply fits_idx; auto; lia|intros Bx]. cbv zeta. cbn [o_is_zero o int_ops].
    destruct (_ =? 0)%Z eqn:E; [reflexivity|]. apply Z.eqb_neq in E. unfold bind. cbn [o_div o_one o int_ops].
    rewrite div_ok; [|apply bd_range with 1%Z; [unfold bd; cbn; lia|lia]|now apply bd_range with b|exact E|].
    + rewrite mnew_spec by (reflexivity || lia). reflexivity.
    + intros [F _]. unfold i_lo in F. rewrite Hsg in F. lia.
  - unfold inv2. eapply bind_fits; [apply fits_det2; auto|intros Bx]. cbv zeta. change (o_is_zero o (det_2 z_arith m)) with (det_2 z_arith m =? 0)%Z.
    destruct (_ =? 0)%Z eqn:E; [reflexivity|]. apply Z.eqb_neq in E.
    eapply bind_fits; [apply fits_idx; auto; lia|intros ?]. eapply bind_fits; [apply fits_idx; auto; lia|intros ?]. eapply bind_fits; [apply fits_neg; eassumption|intros ?].
    eapply bind_fits; [apply fits_idx; auto; lia|intros ?]. eapply bind_fits; [apply fits_neg; eassumption|intros ?]. eapply bind_fits; [apply fits_idx; auto; lia|intros ?].
    unfold bind. rewrite mnew_spec by (reflexivity || lia). rewrite (scale_fits 2 _ _ b (b * b + b * b)%Z s); [reflexivity|split; [reflexivity|repeat constructor]|lia| |exact S1|exact Bx|lia|exact E].
    repeat (constructor; try assumption).
  - unfold inv3. eapply bind_fits; [apply fits_det3; auto|intros Bx]. cbv zeta. change (o_is_zero o (det_3 z_arith m)) with (det_3 z_arith m =? 0)%Z.
    destruct (_ =? 0)%Z eqn:E; [reflexivity|]. apply Z.eqb_neq in E.
    do 9 (eapply bind_fits; [apply fits_ms; auto; lia|intros ?]).
    unfold bind. rewrite mnew_spec by (reflexivity || lia).
    rewrite (scale_fits 3 _ _ (b * b + b * b)%Z (b * b * b + b * b * b + b * b * b + b * b * b + b * b * b + b * b * b)%Z s); [reflexivity|split; [reflexivity|repeat constructor]|lia| |lia|exact Bx|lia|exact E].
    repeat (constructor; try assumption).
Qed.
End Bounded.
(** Restrictions: dimensions up to 3, entries bounded so that no intermediate value overflows (with
    or without overflow checks). The method returns exactly that matrix. *)
Theorem C78_bounded_partial :
  forall S (c : cfg) (d : ety S Z) t debug n m b (s : S), 1 <= n <= 3 -> i_signed t = true -> rect n n m ->
  (1 <= b)%Z -> (6 * (b * b * b) < 2 ^ (i_bits t - 1))%Z ->
  (forall v x, In v m -> In x v -> (Z.abs x <= b)%Z) ->
  inverse c d (int_ops debug t) n m s = (Ok (z_inv n m), s).
Proof.
  intros S c d t debug n m b s Hn Hs R H1 H2 B. apply (inverse_fits t debug Hs c d b H1 H2); auto.
  unfold bounded_by. rewrite Forall_forall. intros v Hv. rewrite Forall_forall. intros x Hx. unfold bd. eauto.
Qed.
Print Assumptions C78_bounded_partial.

Lemma z_adj_rect n m : rect n n (z_adj n m).
Proof. apply mat_rect. Qed.
Lemma rect_map {X Y} (f : X -> Y) r k m : rect r k m -> rect r k (map (map f) m).
Proof. intros [L F]. split; [now rewrite map_length|]. rewrite Forall_map. eapply Forall_impl; [|exact F]. cbn. intros. now rewrite map_length. Qed.
Lemma det_mul3 n m x : 1 <= n <= 3 -> rect n n m -> rect n n x -> m_det z_arith n (m_mul z_arith n n n m x) = (m_det z_arith n m * m_det z_arith n x)%Z.
Proof.
  intros Hn R R2. destruct n as [|[|[|[|n]]]]; try lia.
  - destruct (rect1 m R) as (? & ->), (rect1 x R2) as (? & ->). zcalc. ring.
  - destruct (rect2 m R) as (? & ? & ? & ? & ->), (rect2 x R2) as (? & ? & ? & ? & ->). zcalc. ring.
  - destruct (rect3 m R) as (? & ? & ? & ? & ? & ? & ? & ? & ? & ->), (rect3 x R2) as (? & ? & ? & ? & ? & ? & ? & ? & ? & ->). zcalc. ring.
Qed.
Lemma det_id3 n : 1 <= n <= 3 -> m_det z_arith n (m_id z_arith n) = 1%Z.
Proof. intros Hn. destruct n as [|[|[|[|n]]]]; try lia; reflexivity. Qed.
Lemma quot_unit x e : (e = 1 \/ e = -1)%Z -> Z.quot x e = (x * e)%Z.
Proof. intros [->| ->]; [rewrite Z.quot_1_r; ring|]. change (-1)%Z with (- (1))%Z. rewrite Z.quot_opp_r, Z.quot_1_r by lia. ring. Qed.
(** [m] times its adjugate scaled by [e], where [e] times the determinant is 1. *)
Lemma adj_inv n m e : 1 <= n <= 3 -> rect n n m -> (m_det z_arith n m * e = 1)%Z -> z_inverse n m (map (map (fun x => x * e)%Z) (z_adj n m)).
Proof.
  intros Hn R E. split; [apply rect_map, z_adj_rect|].
  assert (Z : forall u v : Z, (u = v * (m_det z_arith n m * e))%Z -> u = v) by (intros u v K; rewrite E in K; lia).
  explicit n m R; split; unfold z_adj; zcalc; repeat f_equal; (apply Z; zcalc; ring).
Qed.
(** Up to dimension 3, that matrix is an inverse exactly when the determinant is 1 or -1 - that is,
    whenever [m] has an inverse over the integers. *)
Theorem C78_units_partial :
  forall n m x, 1 <= n <= 3 -> rect n n m -> z_inv n m = Some x ->
  (z_inverse n m x <-> (m_det z_arith n m = 1 \/ m_det z_arith n m = -1)%Z) /\
  (z_inverse n m x <-> exists x', z_inverse n m x').
Proof.
  intros n m x Hn R E. unfold z_inv in E. destruct (_ =? 0)%Z eqn:E0; [discriminate|]. injection E as <-.
  assert (D : forall x', z_inverse n m x' -> (m_det z_arith n m = 1 \/ m_det z_arith n m = -1)%Z).
  { intros x' (Rx & E1 & _). pose proof (det_mul3 n m x' Hn R Rx) as M. rewrite E1, det_id3 in M by exact Hn.
    symmetry in M. destruct (Z.mul_eq_1 _ _ M) as [-> | ->]; auto. }
  assert (B : (m_det z_arith n m = 1 \/ m_det z_arith n m = -1)%Z -> z_inverse n m (map (map (fun x => Z.quot x (m_det z_arith n m))) (z_adj n m))).
  { intros U. replace (map (map (fun x => Z.quot x (m_det z_arith n m))) (z_adj n m)) with (map (map (fun x => x * m_det z_arith n m)%Z) (z_adj n m)).
    - apply adj_inv; auto. destruct U as [-> | ->]; reflexivity.
    - apply map_ext. intros v. apply map_ext. intros y. symmetry. now apply quot_unit. }
  split; split; eauto. intros [x' Hx]. eauto.
Qed.
Print Assumptions C78_units_partial.
(** Otherwise "Some" does not mean "inverse": [[2]] gives [[0]]. *)
Theorem C78_truncates_refuted :
  exists m x, rect 1 1 m /\ m_in_range i32 m /\ ~ z_inverse 1 m x /\
  (forall S (c : cfg) (d : ety S Z) (s : S) debug, inverse c d (int_ops debug i32) 1 m s = (Ok (Some x), s)).
Proof.
  exists [[2%Z]], [[0%Z]]. split; [split; [reflexivity|repeat constructor]|]. split; [repeat constructor; cbn; lia|]. split.
  - intros (_ & E & _). vm_compute in E. discriminate.
  - intros S c d s debug. exact (C78_bounded_partial S c d i32 debug 1 [[2%Z]] 2 s ltac:(lia) eq_refl ltac:(split; [reflexivity|repeat constructor]) ltac:(lia) ltac:(reflexivity) ltac:(cbn; intros ? ? [<-|[]] [<-|[]]; lia)).
Qed.
Print Assumptions C78_truncates_refuted.
(** From dimension 4 on, not even when the determinant is 1 (the elimination multiplies by the
    truncated reciprocal 1/2 = 0). *)
Theorem C78_unimodular_refuted :
  exists m x y, rect 4 4 m /\ m_in_range i32 m /\ m_det z_arith 4 m = 1%Z /\ z_inverse 4 m y /\ ~ z_inverse 4 m x /\
  (forall S (c : cfg) (d : ety S Z) (s : S) debug, inverse c d (int_ops debug i32) 4 m s = (Ok (Some x), s)).
Proof.
  exists m51, [[0; 0; 0; 0]; [0; 1; 0; 0]; [0; 0; 1; 0]; [0; 0; 0; 1]]%Z, [[1; -1; 0; 0]; [-1; 2; 0; 0]; [0; 0; 1; 0]; [0; 0; 0; 1]]%Z.
  assert (R : rect 4 4 m51) by (split; [reflexivity|repeat constructor]).
  split; [exact R|]. split; [repeat constructor; cbn; lia|]. split; [reflexivity|]. split; [|split].
  - split; [split; [reflexivity|repeat constructor]|]. split; reflexivity.
  - intros (_ & E & _). vm_compute in E. discriminate.
  - intros S c d s debug. cbn [inverse]. unfold inv_big. unfold bind at 1. rewrite mclone_id; [|exact R|reflexivity].
    assert (I : midentity c d (int_ops debug i32) 4 s = (Ok (m_id z_arith 4), s)) by exact (idm c d z_ops z_arith (ex_semi _ _ (z_exact S)) 4 s).
    rewrite (bind_ok I). vm_compute. reflexivity.
Qed.
Print Assumptions C78_unimodular_refuted.
Example C78_ex : forall (c : cfg) (d : ety unit Z) debug,
  inverse c d (int_ops debug i32) 2 [[2; 1]; [1; 1]]%Z tt = (Ok (Some [[1; -1]; [-1; 2]]%Z), tt) /\
  inverse c d (int_ops debug i32) 2 [[2; 4]; [1; 2]]%Z tt = (Ok None, tt) /\
  z_inverse 2 [[2; 1]; [1; 1]]%Z [[1; -1]; [-1; 2]]%Z.
Proof.
  intros c d debug.
  assert (K : forall m : list (list Z), rect 2 2 m -> (forall v x, In v m -> In x v -> (Z.abs x <= 4)%Z) ->
    inverse c d (int_ops debug i32) 2 m tt = (Ok (z_inv 2 m), tt)).
  { intros m R B. apply (C78_bounded_partial unit c d i32 debug 2 m 4 tt); auto; try lia. reflexivity. }
  split; [|split].
  - rewrite K; [reflexivity|split; [reflexivity|repeat constructor]|]. cbn. intros v x Hv Hx. repeat (destruct Hv as [<-|Hv]; [repeat (destruct Hx as [<-|Hx]; [lia|]); destruct Hx|]). destruct Hv.
  - rewrite K; [reflexivity|split; [reflexivity|repeat constructor]|]. cbn. intros v x Hv Hx. repeat (destruct Hv as [<-|Hv]; [repeat (destruct Hx as [<-|Hx]; [lia|]); destruct Hx|]). destruct Hv.
  - split; [split; [reflexivity|repeat constructor]|]. split; reflexivity.
Qed.
