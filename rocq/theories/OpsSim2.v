(** * OpsSim2.v - cofactors and inverses of every size when operators compute a pure function or
    panic: continues OpsSim.v. *)
From Coq Require Import List Arith Bool Lia.
From Verif Require Import Rust Iter Elem VectorM MatIterM MatrixM ArithM OpsM SpecCommon SpecAlg.
From Verif Require Import IterProofs OwnProofs ChunkProofs VecProofs MatProofs AccProofs Sim DetLoop OpsPure OpsSim.
Import ListNotations.

Section Checked.
Context {S T : Type}.
Variable A : arith T.
Variable dv : T -> T -> T.
Variable iz : T -> bool.
Variable pa : bool.
Variable c : cfg.
Variable d : ety S T.
Variable o : ops S T.
Hypothesis H : sim_ring pa eq o A.
Hypothesis HD : forall x y, sim pa eq (o_div o x y) (dv x y).
Hypothesis HZ : forall x, o_is_zero o x = iz x.
Let HS := sm_semi _ _ _ _ H.
Notation simq m x := (sim (S := S) pa eq m x).
Lemma cofactor_s n m i j : 2 <= n -> n + n <= W c -> rect n n m -> i < n -> j < n ->
  simq (cofactor c d o n m (i, j)) (p_cof A dv iz n m i j).
Proof using H HD HZ.
  intros Hn HW R Hi Hj. pose proof (W_big c) as HB. destruct n as [|[|[|[|n']]]]; try lia.
  - cbn [cofactor p_cof]. unfold cof2. eapply simq_bind; [apply (s_cof_sign A pa c o H); lia|].
    eapply simq_bind; [apply (simq_run pa _ (1 - i)); intros s; unfold usz_sub; destruct (Nat.leb_spec i 1); [reflexivity|lia]|].
    eapply simq_bind; [apply (simq_run pa _ (1 - j)); intros s; unfold usz_sub; destruct (Nat.leb_spec j 1); [reflexivity|lia]|].
    eapply simq_bind; [apply (s_ix' A pa o H 2); auto; lia|]. apply (s_mul A pa o H).
  - cbn [cofactor p_cof]. unfold cof3.
    eapply simq_bind; [apply (simq_run pa _ tt); intros s; rewrite (proj2 (Nat.ltb_lt i 3)), (proj2 (Nat.ltb_lt j 3)) by lia; reflexivity|].
    eapply simq_bind; [apply (s_cof_sign A pa c o H); lia|]. eapply simq_bind; [apply (s_submatrix A pa c d o H); auto; lia|].
    eapply simq_bind; [apply (sim_det2 pa eq c o A H); [apply Forall2_eq2|apply mat_rect]|]. apply (s_mul A pa o H).
  - unfold cofactor, p_cof, cof_big. cbn [fst snd].
    eapply simq_bind; [apply (simq_run pa _ tt); intros s; rewrite (proj2 (Nat.ltb_lt i _)), (proj2 (Nat.ltb_lt j _)) by eassumption; reflexivity|].
    eapply simq_bind; [apply (s_submatrix A pa c d o H); auto; lia|]. eapply simq_bind; [apply (s_cof_sign A pa c o H); lia|].
    eapply simq_bind; [|apply (s_mul A pa o H)].
    replace (Datatypes.S (Datatypes.S (Datatypes.S (Datatypes.S n'))) - 1) with (Datatypes.S (Datatypes.S (Datatypes.S n'))) by lia.
    apply (det_s A dv iz pa c d o H (fun x y _ => HD x y) HZ); [lia|lia|].
    unfold p_sub. replace (Datatypes.S (Datatypes.S (Datatypes.S (Datatypes.S n'))) - 1) with (Datatypes.S (Datatypes.S (Datatypes.S n'))) by lia. apply mat_rect.
Qed.
Ltac idx_step := eapply simq_bind; [apply (sim_idx pa eq c o A H); [apply Forall2_eq2|assumption|lia|lia]|].
Lemma ms_s m i1 j1 i2 j2 i3 j3 i4 j4 : rect 3 3 m -> i1 < 3 -> j1 < 3 -> i2 < 3 -> j2 < 3 -> i3 < 3 -> j3 < 3 -> i4 < 3 -> j4 < 3 ->
  simq (ms c o m i1 j1 i2 j2 i3 j3 i4 j4) (p_ms A m i1 j1 i2 j2 i3 j3 i4 j4).
Proof using H.
  intros Rm ? ? ? ? ? ? ? ?. unfold ms, p_ms. do 2 idx_step. eapply simq_bind; [apply (s_mul A pa o H)|].
  do 2 idx_step. eapply simq_bind; [apply (s_mul A pa o H)|]. apply (s_sub A pa o H).
Qed.
Lemma finish_s n rows x : n < W c -> rect n n rows ->
  simq (mm <- mnew c d n rows ;; r <- mscale c d n n (o_div o) (o_clone o) mm x ;; ret (Some r)) (Some (map (map (fun e => dv e x)) rows)).
Proof using H HD.
  intros Hn Rr. eapply simq_bind; [apply simq_run; intros s; now apply mnew_spec; [apply Rr|]|].
  eapply simq_bind; [|apply simq_ret].
  replace (map (map (fun e => dv e x)) rows) with (mat n n (fun i j => dv (at2 A rows i j) x)).
  - eapply sim_weaken; [|apply (sim_mscale pa eq c d A (o_div o) dv); [intros ? ? ? ? -> ->; apply HD|apply HS|apply Forall2_eq2|reflexivity|exact Rr|exact Hn|exact Hn]].
    intros a Ha. now apply Forall2_eq2_inv.
  - transitivity (map (map (fun e => dv e x)) (mat n n (at2 A rows))); [|now rewrite (mat_at2 A n n rows Rr)].
    unfold mat, vec. rewrite map_map. apply map_ext. intros i. now rewrite map_map.
Qed.
Lemma inverse_s n m : 1 <= n -> rect n n m -> simq (inverse c d o n m) (p_inverse A dv iz n m).
Proof using H HD HZ.
  intros Hn R. pose proof (W_gt c) as HW. destruct n as [|[|[|[|n']]]]; [lia| | | |now apply (inv_big_s A dv iz pa c d o H (fun x y _ => HD x y) HZ)].
  - cbn [inverse p_inverse]. unfold inv1. idx_step. cbv zeta. rewrite HZ. destruct (iz _); [apply simq_ret|].
    rewrite (sm_one _ _ _ _ HS). eapply simq_bind; [apply HD|]. eapply simq_bind; [apply simq_run; intros s; apply mnew_spec; [reflexivity|lia]|]. apply simq_ret.
  - cbn [inverse p_inverse]. unfold inv2. eapply simq_bind; [apply (sim_det2 pa eq c o A H); [apply Forall2_eq2|assumption]|]. cbv zeta. rewrite HZ. destruct (iz _); [apply simq_ret|].
    do 2 idx_step. eapply simq_bind; [now apply (sm_neg _ _ _ _ H)|]. idx_step. eapply simq_bind; [now apply (sm_neg _ _ _ _ H)|]. idx_step.
    apply finish_s; [lia|split; [reflexivity|repeat constructor]].
  - cbn [inverse p_inverse]. unfold inv3. eapply simq_bind; [apply (sim_det3 pa eq c o A H); [apply Forall2_eq2|assumption]|]. cbv zeta. rewrite HZ. destruct (iz _); [apply simq_ret|].
    do 9 (eapply simq_bind; [apply ms_s; [assumption|lia|lia|lia|lia|lia|lia|lia|lia]|]).
    apply finish_s; [lia|split; [reflexivity|repeat constructor]].
Qed.
End Checked.
