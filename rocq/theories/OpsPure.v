(** * OpsPure.v - determinant, cofactor and inverse when the element operators are pure and
    total (no algebraic laws assumed: IEEE floats qualify): the methods compute fixed pure
    functions. *)
From Coq Require Import List Arith Bool Lia.
From Verif Require Import Rust Iter Elem VectorM MatIterM MatrixM ArithM OpsM SpecCommon SpecAlg.
From Verif Require Import IterProofs OwnProofs ChunkProofs VecProofs MatProofs AccProofs Sim DetLoop.
Import ListNotations.

(** ** Loops as folds *)
Fixpoint ret_fold {St R} (g : nat -> St -> St + R) (l : list nat) (st : St) : St + R :=
  match l with
  | [] => inl st
  | i :: l' => match g i st with inl st' => ret_fold g l' st' | inr v => inr v end
  end.
Lemma for_range_fold {S St} (body : nat -> St -> M S St) (g : nat -> St -> St) (P : St -> Prop) (s : S) lo hi st :
  P st -> (forall i st, lo <= i < hi -> P st -> body i st s = (Ok (g i st), s) /\ P (g i st)) ->
  for_range lo hi body st s = (Ok (fold_left (fun st i => g i st) (seq lo (hi - lo)) st), s) /\
  P (fold_left (fun st i => g i st) (seq lo (hi - lo)) st).
Proof.
  unfold for_range. intros HP H. assert (H' : forall i st, lo <= i < lo + (hi - lo) -> P st -> body i st s = (Ok (g i st), s) /\ P (g i st))
    by (intros; apply H; [lia|assumption]). clear H.
  set (k := hi - lo) in *. clearbody k. clear hi. revert lo st HP H'. induction k as [|k IH]; intros lo st HP H; cbn [for_n seq fold_left]; [auto|].
  destruct (H lo st) as [E1 P1]; [lia|exact HP|]. unfold bind. rewrite E1. rewrite Nat.add_1_r.
  apply IH; [exact P1|]. intros; apply H; [lia|assumption].
Qed.
Lemma for_range_ret_fold {S St R} (body : nat -> St -> M S (St + R)) (g : nat -> St -> St + R) (P : St -> Prop) (s : S) lo hi st :
  P st -> (forall i st, lo <= i < hi -> P st -> body i st s = (Ok (g i st), s) /\ match g i st with inl st' => P st' | inr _ => True end) ->
  for_range_ret lo hi body st s = (Ok (ret_fold g (seq lo (hi - lo)) st), s) /\
  match ret_fold g (seq lo (hi - lo)) st with inl st' => P st' | inr _ => True end.
Proof.
  unfold for_range_ret. intros HP H.
  assert (H' : forall i st, lo <= i < lo + (hi - lo) -> P st -> body i st s = (Ok (g i st), s) /\ match g i st with inl st' => P st' | inr _ => True end)
    by (intros; apply H; [lia|assumption]). clear H.
  set (k := hi - lo) in *. clearbody k. clear hi. revert lo st HP H'. induction k as [|k IH]; intros lo st HP H; cbn [for_n_ret seq ret_fold]; [auto|].
  destruct (H lo st) as [E1 P1]; [lia|exact HP|]. unfold bind. rewrite E1. rewrite Nat.add_1_r. destruct (g lo st); [|auto].
  apply IH; [exact P1|]. intros; apply H; [lia|assumption].
Qed.

Section Pure.
Context {T : Type}.
Variable A : arith T.
Variable dv : T -> T -> T.
Variable iz : T -> bool.

(** ** The pure functions *)
Definition p_elim (n i j : nat) (dd : T) (m : list (list T)) := mat n n (f_elim A i j dd (at2 A m)).
Definition p_scale (n i : nat) (r : T) (m : list (list T)) := mat n n (f_scale A i r (at2 A m)).
Definition p_sub (n i j : nat) (m : list (list T)) := mat (n - 1) (n - 1) (fun a b => at2 A m (skip i a) (skip j b)).
Definition p_sign (i j : nat) : T := if (i + j) mod 2 =? 0 then a_one A else a_neg A (a_one A).
Definition p_det_big (n : nat) (m : list (list T)) (cof : nat * nat -> T) : T :=
  let step i mat :=
    ret_fold (fun j mat =>
      if iz (at2 A mat i i)
      then inr (fold_left (fun acc i => a_add A acc (a_mul A (at2 A m i 0) (cof (i, 0)))) (seq 0 n) (a_zero A))
      else inl (p_elim n i j (dv (at2 A mat j i) (at2 A mat i i)) mat)) (seq (i + 1) (n - (i + 1))) mat in
  match ret_fold step (seq 0 (n - 0)) m with
  | inr v => v
  | inl mat => fold_left (fun acc i => a_mul A acc (at2 A mat i i)) (seq 0 n) (a_one A)
  end.
Fixpoint p_det (n : nat) (m : list (list T)) : T :=
  match n with
  | 0 => a_zero A
  | 1 => det_1 A m
  | 2 => det_2 A m
  | 3 => det_3 A m
  | Datatypes.S n' => p_det_big n m (fun ij => a_mul A (p_sign (fst ij) (snd ij)) (p_det n' (p_sub n (fst ij) (snd ij) m)))
  end.
Definition p_cof (n : nat) (m : list (list T)) (i j : nat) : T :=
  match n with
  | 2 => a_mul A (p_sign i j) (at2 A m (1 - i) (1 - j))
  | _ => a_mul A (p_sign i j) (p_det (n - 1) (p_sub n i j m))
  end.
Definition p_inv_step (n i : nat) (mi : list (list T) * list (list T)) : (list (list T) * list (list T)) + unit :=
  if iz (at2 A (fst mi) i i) then inr tt
  else
    let r := dv (a_one A) (at2 A (fst mi) i i) in
    inl (fold_left (fun mi j =>
           if i =? j then mi
           else let a := at2 A (fst mi) j i in (p_elim n i j a (fst mi), p_elim n i j a (snd mi)))
         (seq 0 (n - 0)) (p_scale n i r (fst mi), p_scale n i r (snd mi))).
Definition p_inv_big (n : nat) (m : list (list T)) : option (list (list T)) :=
  match ret_fold (p_inv_step n) (seq 0 (n - 0)) (m, m_id A n) with
  | inr _ => None
  | inl mi => Some (snd mi)
  end.
Definition p_ms (m : list (list T)) (i1 j1 i2 j2 i3 j3 i4 j4 : nat) : T :=
  a_sub A (a_mul A (at2 A m i1 j1) (at2 A m i2 j2)) (a_mul A (at2 A m i3 j3) (at2 A m i4 j4)).
Definition p_inverse (n : nat) (m : list (list T)) : option (list (list T)) :=
  match n with
  | 1 => let x := at2 A m 0 0 in if iz x then None else Some [[dv (a_one A) x]]
  | 2 => let x := det_2 A m in
         if iz x then None
         else Some (map (map (fun e => dv e x))
                [[at2 A m 1 1; a_neg A (at2 A m 0 1)]; [a_neg A (at2 A m 1 0); at2 A m 0 0]])
  | 3 => let x := det_3 A m in
         if iz x then None
         else Some (map (map (fun e => dv e x))
                [[p_ms m 1 1 2 2 1 2 2 1; p_ms m 0 2 2 1 0 1 2 2; p_ms m 0 1 1 2 0 2 1 1];
                 [p_ms m 1 2 2 0 1 0 2 2; p_ms m 0 0 2 2 0 2 2 0; p_ms m 0 2 1 0 0 0 1 2];
                 [p_ms m 1 0 2 1 1 1 2 0; p_ms m 0 1 2 0 0 0 2 1; p_ms m 0 0 1 1 0 1 1 0]])
  | _ => p_inv_big n m
  end.

(** ** The methods compute them *)
Context {S : Type}.
Variable c : cfg.
Variable d : ety S T.
Variable o : ops S T.
Hypothesis HE : exact o A.
Hypothesis HD : pure2 (o_div o) dv.
Hypothesis HZ : forall x, o_is_zero o x = iz x.
Let HC : faithful (o_clone o) := ex_clone _ _ (ex_semi _ _ HE).
Let HM : pure2 (o_mul o) (a_mul A) := ex_mul _ _ (ex_semi _ _ HE).
Let HA : pure2 (o_add o) (a_add A) := ex_add _ _ (ex_semi _ _ HE).

Lemma W_big : 64 <= W c.
Proof using. unfold W. change 64 with (2 ^ 6). apply Nat.pow_le_mono_r; [discriminate|]. pose proof (wbits_ok c). lia. Qed.

Lemma ix_p n m i j s : rect n n m -> i < n -> j < n -> ix o m i j s = (Ok (at2 A m i j), s).
Proof using HE. intros R Hi Hj. rewrite <- (mat_at2 A n n m R) at 1. now rewrite (ix_mat o A HE). Qed.
Lemma p_elim_rect n i j dd m : rect n n (p_elim n i j dd m).
Proof using. apply mat_rect. Qed.
Lemma elim_row_p n i j dd m s : rect n n m -> i < n -> j < n -> i <> j -> elim_row o n i j dd m s = (Ok (p_elim n i j dd m), s).
Proof using HE. intros R Hi Hj Hij. rewrite <- (mat_at2 A n n m R) at 1. now rewrite (elim_row_spec o A HE). Qed.
Lemma submatrix_p n m i j s : rect n n m -> i < n -> j < n -> n < W c -> submatrix c d o n m i j s = (Ok (p_sub n i j m), s).
Proof using HE. intros R Hi Hj HW. rewrite <- (mat_at2 A n n m R) at 1. now rewrite (submatrix_spec c d o A HE). Qed.
Lemma cof_sign_p i j s : i + j < W c -> cof_sign c o i j s = (Ok (p_sign i j), s).
Proof using HE.
  intros H. unfold cof_sign, usz_add, bind. destruct (Nat.ltb_spec (i + j) (W c)); [|lia]. unfold ret at 1.
  unfold p_sign. destruct (_ =? 0); [unfold ret; now rewrite (ex_one _ _ (ex_semi _ _ HE))|].
  rewrite (ex_one _ _ (ex_semi _ _ HE)). apply (ex_neg _ _ HE).
Qed.
Lemma det1_p m s : rect 1 1 m -> det1 c o m s = (Ok (det_1 A m), s).
Proof using HE. intros R. exact (sim_eq _ _ (sim_det1 false eq c o A (exact_sim o A HE) m m (Forall2_eq2 m) R) s). Qed.
Lemma det2_p m s : rect 2 2 m -> det2 c o m s = (Ok (det_2 A m), s).
Proof using HE. intros R. exact (sim_eq _ _ (sim_det2 false eq c o A (exact_sim o A HE) m m (Forall2_eq2 m) R) s). Qed.
Lemma det3_p m s : rect 3 3 m -> det3 c o m s = (Ok (det_3 A m), s).
Proof using HE. intros R. exact (sim_eq _ _ (sim_det3 false eq c o A (exact_sim o A HE) m m (Forall2_eq2 m) R) s). Qed.

Lemma det_big_p n m cof pcof s : rect n n m -> 1 <= n ->
  (forall i s, i < n -> cof (i, 0) s = (Ok (pcof (i, 0)), s)) ->
  det_big c d o n m cof s = (Ok (p_det_big n m pcof), s).
Proof using HE HD HZ.
  intros R Hn Hcof. unfold det_big, p_det_big. unfold bind at 1. rewrite mclone_id; [|exact R|exact HC].
  set (step := fun i mat => ret_fold _ (seq (i + 1) (n - (i + 1))) mat).
  unfold bind at 1.
  destruct (for_range_ret_fold (fun i mat =>
         for_range_ret (i + 1) n (fun j mat =>
           piv <- mindex mat (i, i) ;;
           if o_is_zero o piv then v <- expand_col0 o n m cof ;; ret (inr v)
           else
             a <- ix o mat j i ;; b <- ix o mat i i ;;
             dd <- o_div o a b ;;
             mat' <- elim_row o n i j dd mat ;;
             ret (inl mat')) mat) step (rect n n) s 0 n m R) as [E P].
  - intros i st Hi Rst. unfold step. apply for_range_ret_fold; [exact Rst|].
    intros j st' Hj Rst'. unfold bind at 1. rewrite (mindex_in _ i i (at2 A st' i i)).
    2:{ rewrite <- (mat_at2 A n n st' Rst') at 1. apply entry_mat; lia. }
    rewrite HZ. destruct (iz (at2 A st' i i)).
    + unfold bind. unfold expand_col0. rewrite (fold_range _ (fun i => a_mul A (at2 A m i 0) (pcof (i, 0))) _ (a_add A)); [|exact HA|].
      * split; [|exact I]. now rewrite (ex_zero _ _ (ex_semi _ _ HE)).
      * intros k s0 Hk. unfold bind. rewrite (ix_p n) by (auto; lia). rewrite Hcof by exact Hk. apply HM.
    + unfold bind. rewrite !(ix_p n) by (auto; lia). rewrite HD. rewrite elim_row_p by (auto; lia). split; [reflexivity|apply p_elim_rect].
  - rewrite E. destruct (ret_fold step (seq 0 (n - 0)) m) as [st|v]; [|reflexivity].
    rewrite (fold_range _ (fun i => at2 A st i i) _ (a_mul A)); [|exact HM|].
    + now rewrite (ex_one _ _ (ex_semi _ _ HE)).
    + intros i s0 Hi. apply (ix_p n); auto.
Qed.
Lemma det_p n : forall m s, 1 <= n -> n + n <= W c -> rect n n m -> det c d o n m s = (Ok (p_det n m), s).
Proof using HE HD HZ.
  induction n as [|n' IH]; intros m s Hn HW R; [lia|].
  destruct n' as [|[|[|n']]]; [now apply det1_p|now apply det2_p|now apply det3_p|].
  set (k := Datatypes.S (Datatypes.S (Datatypes.S n'))) in *.
  change (det_big c d o (Datatypes.S k) m (cof_big c d o (Datatypes.S k) (det c d o k) m) s =
    (Ok (p_det_big (Datatypes.S k) m (fun ij => a_mul A (p_sign (fst ij) (snd ij)) (p_det k (p_sub (Datatypes.S k) (fst ij) (snd ij) m)))), s)).
  assert (3 <= k) by lia. clearbody k. apply det_big_p; [exact R|lia|]. intros i s0 Hi. unfold cof_big, bind.
  rewrite (proj2 (Nat.ltb_lt i (Datatypes.S k))), (proj2 (Nat.ltb_lt 0 (Datatypes.S k))) by lia. cbn [andb assert]. unfold ret at 1.
  pose proof W_big as HB. rewrite submatrix_p by (auto; lia). rewrite cof_sign_p by lia. rewrite IH; [|lia|lia|]. 1: apply HM.
  unfold p_sub. replace (Datatypes.S k - 1) with k by lia. apply mat_rect.
Qed.
Lemma cofactor_p n m i j s : 2 <= n -> n + n <= W c -> rect n n m -> i < n -> j < n ->
  cofactor c d o n m (i, j) s = (Ok (p_cof n m i j), s).
Proof using HE HD HZ.
  intros Hn HW R Hi Hj. pose proof W_big as HB. destruct n as [|[|[|[|n']]]]; try lia.
  - cbn [cofactor p_cof]. unfold cof2, bind. rewrite cof_sign_p by lia. unfold usz_sub.
    destruct (Nat.leb_spec i 1); [|lia]. destruct (Nat.leb_spec j 1); [|lia]. unfold ret.
    rewrite (ix_p 2) by (auto; lia). apply HM.
  - cbn [cofactor p_cof]. unfold cof3, bind. rewrite (proj2 (Nat.ltb_lt i 3)), (proj2 (Nat.ltb_lt j 3)) by lia. cbn [andb assert]. unfold ret at 1.
    rewrite cof_sign_p by lia. rewrite submatrix_p by (auto; lia). rewrite det2_p by apply mat_rect. apply HM.
  - unfold cofactor, p_cof, cof_big, bind. rewrite (proj2 (Nat.ltb_lt i _)), (proj2 (Nat.ltb_lt j _)) by eassumption. cbn [andb assert]. unfold ret at 1.
    rewrite submatrix_p by (auto; lia). rewrite cof_sign_p by lia.
    replace (Datatypes.S (Datatypes.S (Datatypes.S (Datatypes.S n'))) - 1) with (Datatypes.S (Datatypes.S (Datatypes.S n'))) by lia.
    rewrite det_p; [apply HM|lia|lia|].
    unfold p_sub. replace (Datatypes.S (Datatypes.S (Datatypes.S (Datatypes.S n'))) - 1) with (Datatypes.S (Datatypes.S (Datatypes.S n'))) by lia. apply mat_rect.
Qed.
Lemma inv_big_p n m s : rect n n m -> inv_big c d o n m s = (Ok (p_inv_big n m), s).
Proof using HE HD HZ.
  intros R. unfold inv_big, p_inv_big. unfold bind at 1. rewrite mclone_id; [|exact R|exact HC].
  unfold bind at 1. rewrite (sim_eqm _ _ (sim_midentity false eq c d o A (exact_sim_semi o A (ex_semi _ _ HE)) n) s).
  unfold bind at 1.
  destruct (for_range_ret_fold (fun i mi =>
         dd <- ix o (fst mi) i i ;;
         if o_is_zero o dd then ret (inr tt)
         else
           rcp <- o_div o (o_one o) dd ;;
           mi1 <- scale_rows o n i rcp mi ;;
           mi2 <- for_range 0 n (fun j mi =>
                    if i =? j then ret mi
                    else a <- ix o (fst mi) j i ;; elim_rows o n i j a mi) mi1 ;;
           ret (inl mi2)) (p_inv_step n) (fun mi => rect n n (fst mi) /\ rect n n (snd mi)) s 0 n (m, m_id A n)) as [E P].
  - split; [exact R|apply mat_rect].
  - intros i mi Hi [R1 R2]. unfold bind at 1. rewrite (ix_p n) by (auto; lia). rewrite HZ. unfold p_inv_step.
    destruct (iz (at2 A (fst mi) i i)); [split; [reflexivity|exact I]|].
    unfold bind at 1. rewrite HD, (ex_one _ _ (ex_semi _ _ HE)). unfold bind at 1.
    set (r := dv (a_one A) (at2 A (fst mi) i i)).
    assert (ES : scale_rows o n i r mi s = (Ok (p_scale n i r (fst mi), p_scale n i r (snd mi)), s)).
    { destruct mi as [m1 m2]. cbn [fst snd] in *. rewrite <- (mat_at2 A n n m1 R1), <- (mat_at2 A n n m2 R2) at 1.
      rewrite (scale_rows_spec o A HE) by lia. reflexivity. }
    rewrite ES. unfold bind at 1.
    destruct (for_range_fold (fun j mi => if i =? j then ret mi else a <- ix o (fst mi) j i ;; elim_rows o n i j a mi)
      (fun j mi => if i =? j then mi else let a := at2 A (fst mi) j i in (p_elim n i j a (fst mi), p_elim n i j a (snd mi)))
      (fun mi => rect n n (fst mi) /\ rect n n (snd mi)) s 0 n (p_scale n i r (fst mi), p_scale n i r (snd mi))) as [E P].
    + split; apply mat_rect.
    + intros j mj Hj [R3 R4]. destruct (Nat.eqb_spec i j) as [->|Hij]; [split; [reflexivity|auto]|].
      unfold bind. rewrite (ix_p n) by (auto; lia). destruct mj as [m1 m2]. cbn [fst snd] in *.
      set (a := at2 A m1 j i). rewrite <- (mat_at2 A n n m1 R3), <- (mat_at2 A n n m2 R4) at 1.
      rewrite (elim_rows_spec o A HE) by lia. split; [reflexivity|split; apply mat_rect].
    + rewrite E. split; [reflexivity|exact P].
  - rewrite E. destruct (ret_fold _ _ _); reflexivity.
Qed.
Lemma inverse_p n m s : 1 <= n -> rect n n m -> inverse c d o n m s = (Ok (p_inverse n m), s).
Proof using HE HD HZ.
  intros Hn R. pose proof W_big as HW. destruct n as [|[|[|[|n']]]]; [lia| | | |now apply inv_big_p].
  - cbn [inverse p_inverse]. unfold inv1, bind. rewrite (idx_spec c o A HE) by (auto; lia). rewrite HZ. cbv zeta.
    destruct (iz _); [reflexivity|]. rewrite HD, (ex_one _ _ (ex_semi _ _ HE)). rewrite mnew_spec; [reflexivity|reflexivity|lia].
  - cbn [inverse p_inverse]. unfold inv2, bind. rewrite det2_p by exact R. rewrite HZ. cbv zeta.
    destruct (iz _); [reflexivity|]. rewrite !(idx_spec c o A HE) by (auto; lia). rewrite (ex_neg _ _ HE).
    rewrite !(idx_spec c o A HE) by (auto; lia). rewrite (ex_neg _ _ HE). rewrite !(idx_spec c o A HE) by (auto; lia).
    rewrite mnew_spec by (auto; lia).
    rewrite (mscale_pure c d o A HE 2 2 _ (fun e => dv e (det_2 A m))); [reflexivity| |lia|lia|intros; apply HD].
    split; [reflexivity|]. repeat constructor.
  - cbn [inverse p_inverse]. unfold inv3, bind. rewrite det3_p by exact R. rewrite HZ. cbv zeta.
    destruct (iz _); [reflexivity|]. rewrite !(ms_spec c o A HE) by (auto; lia).
    rewrite mnew_spec by (auto; lia).
    rewrite (mscale_pure c d o A HE 3 3 _ (fun e => dv e (det_3 A m))); [reflexivity| |lia|lia|intros; apply HD].
    split; [reflexivity|]. repeat constructor.
Qed.
End Pure.

Lemma ret_fold_inv {St R} (g : nat -> St -> St + R) (P : St -> Prop) l : forall st,
  P st -> (forall i st st', P st -> g i st = inl st' -> P st') -> forall st', ret_fold g l st = inl st' -> P st'.
Proof.
  induction l as [|i l IH]; cbn; intros st HP H st' E; [injection E as <-; exact HP|].
  destruct (g i st) as [st1|] eqn:E1; [|discriminate]. exact (IH st1 (H i st st1 HP E1) H st' E).
Qed.
Lemma p_inv_rect {T} (A : arith T) dv iz n m x : rect n n m -> p_inv_big A dv iz n m = Some x -> rect n n x.
Proof.
  intros R. unfold p_inv_big. destruct (ret_fold _ _ _) as [mi|] eqn:E; [|discriminate]. intros [= <-].
  revert E. apply (ret_fold_inv _ (fun mi => rect n n (snd mi))); [apply mat_rect|].
  intros i st st' HP. unfold p_inv_step. destruct (iz _); [discriminate|]. intros [= <-].
  assert (G : forall l mi, rect n n (snd mi) -> rect n n (snd (fold_left (fun mi j => if i =? j then mi
           else let a := at2 A (fst mi) j i in (p_elim A n i j a (fst mi), p_elim A n i j a (snd mi))) l mi))).
  { induction l as [|j l IH]; intros mi0 H; cbn [fold_left]; [exact H|]. apply IH. destruct (i =? j); [exact H|]. apply mat_rect. }
  apply G. apply mat_rect.
Qed.
