(** * PropsFloatInv.v - C66, the part that holds: f32 and f64 inverses of sizes 1, 2, 3; the
    determinant (C69). *)
From Coq Require Import List Arith Bool Lia ZArith Reals Lra.
From Flocq Require Import Core BinarySingleNaN Relative Plus_error.
From Verif Require Import Rust Iter Elem VectorM MatIterM MatrixM ArithM OpsM SpecCommon SpecAlg FloatM SpecReal.
From Verif Require Import Harness AccProofs Sim PropsAlg DetLoop OpsPure FloatErr PropsFloat PropsFloatErr.
Import ListNotations.
Local Open Scope R_scope.

(** * C66, the part that holds: sizes 1, 2, 3 *)
Section Format.
Context {prec emax : Z} {Hgt : Prec_gt_0 prec} {Hlt : Prec_lt_emax prec emax} {OK : fmt_ok prec emax}.
Local Notation FL := (fl prec emax).
Local Notation AR := (fl_arith prec emax Hgt Hlt).
Local Notation OP := (fl_ops prec emax Hgt Hlt).
Local Notation u := (ur prec).
Local Notation P := (Pr prec).
Local Notation ap := (apr prec).
(** Entries between 2^-h and 2^h, condition numbers up to 2^kk. *)
Variables h kk : Z.
Hypothesis Hf0 : (0 <= h /\ 0 <= kk <= prec - 13 /\ 6 * h + kk + prec + 2 <= emax /\ 6 * h + prec + 6 <= emax)%Z.
Ltac flia := pose proof (@ok_prec _ _ OK); pose proof (@ok_emax _ _ OK); lia.
Lemma HH : (0 <= h /\ 2 * h + prec <= emax)%Z.
Proof. lia. Qed.

Lemma small8 : (8 <= 2 ^ (prec - 3))%Z.
Proof. apply (Z.pow_le_mono_r 2 3 (prec - 3)); flia. Qed.
Lemma ap_scale k s v r x : ap k s v r -> ap k (s * Rabs x) (v * x) (r * x).
Proof.
  intros H. replace k with (k + 0)%nat by flia. apply ap_mul0; [exact H|]. apply ap_exact. apply Rle_refl.
Qed.
Lemma adj_core n (f q mh : nat -> FL) (dh : FL) (M pm : nat -> R) (dt perm K t : R) :
  (n <= 3)%nat -> 0 <= K <= b2 kk ->
  (forall k, (k < n)%nat -> fin (f k) /\ rng (-h) h (B2R (f k)) /\ fin (mh k) /\ rng (-(2*h+prec-1)) (2*h+1) (B2R (mh k)) /\
                            ap 2 (pm k) (M k) (B2R (mh k)) /\ q k = Bdiv mode_NE (mh k) dh) ->
  fin dh -> ap 7 perm dt (B2R dh) -> perm <= K * Rabs dt -> rsum n (fun k => Rabs (B2R (f k)) * pm k) <= K * Rabs dt ->
  rsum n (fun k => B2R (f k) * M k) = t * dt -> Rabs t <= 1 -> Rabs (B2R dh) <= b2 (3*h+5) -> b2 (-(3*h+kk)) <= Rabs dt ->
  let z := sum AR n (fun k => a_mul AR (f k) (q k)) in
  fin z /\ Rabs (B2R z - t) <= K * b2 (5 - prec).
Proof.
  intros Hn HK H Fd Ad Hp Hs Ht Ht1 Hu Hl z.
  assert (H7 : P 7 - 1 <= 14 * u).
  { replace 14 with (2 * INR 7) by (cbn; lra). apply P_bound. pose proof u_small. cbn. lra. }
  assert (H49 : b2 kk * u <= b2 (-13)) by (unfold ur; rewrite <- bpow_plus; apply bpow_le; flia).
  assert (H13 : b2 (-13) = / 8192) by (cbn; lra).
  pose proof (@P_ge1 prec 7) as P7. pose proof (@u_pos prec) as Hup.
  set (tau := K * (P 7 - 1)).
  assert (Htau : 0 <= tau <= / 512).
  { unfold tau. split; [apply Rmult_le_pos; lra|]. apply Rle_trans with (b2 kk * (14 * u)); [apply Rmult_le_compat; lra|]. nra. }
  assert (Hd0 : 0 < Rabs dt) by (pose proof (bpow_gt_0 radix2 (-(3*h+kk))); lra).
  assert (Hdd : Rabs (B2R dh - dt) <= tau * Rabs dt).
  { destruct Ad as [Ad _]. apply Rle_trans with (1 := Ad). unfold tau. nra. }
  assert (Hlow : (1 - tau) * Rabs dt <= Rabs (B2R dh)).
  { pose proof (Rabs_triang_inv dt (dt - B2R dh)) as T. replace (dt - (dt - B2R dh)) with (B2R dh) in T by ring.
    rewrite (Rabs_minus_sym dt) in T. lra. }
  assert (Hdpos : 0 < Rabs (B2R dh)) by nra.
  assert (Hdn : B2R dh <> 0) by (intros E; rewrite E, Rabs_R0 in Hdpos; lra).
  assert (Rd : rng (-(3*h+kk+1)) (3*h+5) (B2R dh)).
  { right. split; [|exact Hu]. apply Rle_trans with (2 := Hlow). replace (-(3*h+kk+1))%Z with (-1 + -(3*h+kk))%Z by lia. rewrite bpow_plus.
    replace (b2 (-1)) with (/ 2) by (cbn; lra). pose proof (bpow_gt_0 radix2 (-(3*h+kk))). nra. }
  assert (Q : forall k, (k < n)%nat -> let x := a_mul AR (f k) (q k) in
    fin x /\ Rabs (B2R x) <= b2 (6*h+kk+2) /\
    ap 4 (Rabs (B2R (f k)) * pm k * Rabs (/ B2R dh)) (B2R (f k) * M k * / B2R dh) (B2R x)).
  { intros k Hk x. destruct (H k Hk) as (Ff & Rf & Fm & Rm & Am & Eq). unfold x. rewrite Eq.
    destruct (fdiv_spec _ _ _ _ _ _ Fm Fd Rm Rd Hdn) as (Fq & Rq & e & He & Ee); try flia.
    destruct (fmul_spec _ _ _ _ _ _ Ff Fq Rf Rq) as (Fx & Rx & e' & He' & Ee'); try flia.
    split; [exact Fx|]. split; [apply Rle_trans with (1 := rng_up _ _ _ Rx); apply bpow_le; lia|]. rewrite Ee', Ee.
    replace (B2R (f k) * (B2R (mh k) / B2R dh * (1 + e)) * (1 + e')) with (B2R (f k) * (B2R (mh k) * (1 + e)) * (1 + e') * / B2R dh)
      by (field; exact Hdn).
    apply ap_scale. apply (ap_mul 0 3); [apply ap_exact; apply Rle_refl|apply ap_rnd; assumption|exact He']. }
  destruct (fsum_ap n (fun k => a_mul AR (f k) (q k)) (fun k => B2R (f k) * M k * / B2R dh)
              (fun k => Rabs (B2R (f k)) * pm k * Rabs (/ B2R dh)) 4 (6*h+kk+2)) as (Fz & Az & _); [pose proof small8; lia|flia|exact Q|].
  split; [exact Fz|].
  apply (ap_weaken _ 7) in Az; [|flia]. destruct Az as [Az _]. fold z in Az.
  assert (RS : forall g x, rsum n (fun k => g k * x) = rsum n g * x).
  { intros g x. clear. induction n as [|n IH]; [unfold rsum; cbn; ring|]. rewrite !rsum_S, IH. ring. }
  rewrite (RS (fun k => Rabs (B2R (f k)) * pm k)), (RS (fun k => B2R (f k) * M k)), Ht in Az.
  rewrite Rabs_Rinv in Az by exact Hdn.
  (* everything times |dh| *)
  assert (Hz : Rabs (B2R z - t) * Rabs (B2R dh) <= 2 * tau * Rabs dt).
  { replace (B2R z - t) with ((B2R z - t * dt * / B2R dh) + t * (dt - B2R dh) * / B2R dh) by (field; exact Hdn).
    apply Rle_trans with ((Rabs (B2R z - t * dt * / B2R dh) + Rabs (t * (dt - B2R dh) * / B2R dh)) * Rabs (B2R dh)).
    { apply Rmult_le_compat_r; [lra|apply Rabs_triang]. }
    rewrite !Rabs_mult, Rabs_Rinv by exact Hdn. rewrite Rmult_plus_distr_r.
    replace (Rabs t * Rabs (dt - B2R dh) * / Rabs (B2R dh) * Rabs (B2R dh)) with (Rabs t * Rabs (dt - B2R dh)) by (field; lra).
    assert (Rabs (B2R z - t * dt * / B2R dh) * Rabs (B2R dh) <= tau * Rabs dt).
    { apply Rle_trans with ((P 7 - 1) * (rsum n (fun k => Rabs (B2R (f k)) * pm k) * / Rabs (B2R dh)) * Rabs (B2R dh)).
      - apply Rmult_le_compat_r; [lra|exact Az].
      - replace ((P 7 - 1) * (rsum n (fun k => Rabs (B2R (f k)) * pm k) * / Rabs (B2R dh)) * Rabs (B2R dh))
          with ((P 7 - 1) * rsum n (fun k => Rabs (B2R (f k)) * pm k)) by (field; lra). unfold tau. nra. }
    rewrite Rabs_minus_sym in Hdd. pose proof (Rabs_pos (dt - B2R dh)). pose proof (Rabs_pos t). nra. }
  assert (Hfin : Rabs (B2R z - t) * (1 - tau) <= 2 * tau).
  { pose proof (Rabs_pos (B2R z - t)) as Hpos. apply Rmult_le_reg_r with (Rabs dt); [exact Hd0|].
    apply Rle_trans with (2 := Hz). rewrite Rmult_assoc. apply Rmult_le_compat_l; assumption. }
  assert (Htk : tau <= 14 * (K * u)) by (unfold tau; nra).
  replace (b2 (5 - prec)) with (32 * u) by (unfold ur, Zminus; rewrite bpow_plus; reflexivity).
  pose proof (Rabs_pos (B2R z - t)) as Hpos.
  assert (0 <= K * u) by nra. nra.
Qed.

Lemma det_nz (dh : FL) perm dt K : 0 <= K <= b2 kk -> ap 7 perm dt (B2R dh) -> perm <= K * Rabs dt -> dt <> 0 -> B2R dh <> 0.
Proof.
  intros HK Ad Hp Hd E. rewrite E in Ad. destruct Ad as [Ad _]. rewrite Rabs_minus_sym, Rminus_0_r in Ad.
  assert (H7 : P 7 - 1 <= 14 * u).
  { replace 14 with (2 * INR 7) by (cbn; lra). apply P_bound. pose proof u_small. cbn. lra. }
  assert (H49 : b2 kk * u <= b2 (-13)) by (unfold ur; rewrite <- bpow_plus; apply bpow_le; flia).
  assert (H13 : b2 (-13) = / 8192) by (cbn; lra).
  pose proof (@P_ge1 prec 7) as P7. pose proof (@u_pos prec) as Hup. assert (0 < Rabs dt) by (now apply Rabs_pos_lt).
  assert (K * (P 7 - 1) <= b2 kk * (14 * u)) by (apply Rmult_le_compat; lra). nra.
Qed.
Lemma is_zero_false (x : FL) : fin x -> B2R x <> 0 -> fl_is_zero prec emax x = false.
Proof.
  intros F H. unfold fl_is_zero. rewrite Beqb_correct by (auto; reflexivity). apply Req_bool_false. exact H.
Qed.
Definition is_id (i j : nat) : R := if (i =? j)%nat then 1 else 0.
Lemma is_id_le i j : Rabs (is_id i j) <= 1.
Proof. unfold is_id. destruct (i =? j)%nat; rewrite ?Rabs_R0, ?Rabs_R1; lra. Qed.

Definition at_ (m : list (list FL)) := at2 AR m.
Lemma opp_fin (x : FL) : fin x -> fin (Bopp x) /\ B2R (Bopp x) = - B2R x.
Proof. intros H. split; [unfold fin; rewrite is_finite_Bopp; exact H|apply B2R_Bopp]. Qed.
Lemma rng1 : rng (-h) h 1.
Proof. right. rewrite Rabs_R1. replace 1 with (b2 0) by reflexivity. split; apply bpow_le; lia. Qed.
Lemma low_perm x K dt : 0 <= K <= b2 kk -> x <= K * Rabs dt -> b2 (-(3*h)) <= x -> b2 (-(3*h+kk)) <= Rabs dt.
Proof.
  intros HK H1 H2. apply Rmult_le_reg_l with (b2 kk); [apply bpow_gt_0|]. rewrite <- bpow_plus. replace (kk + -(3*h+kk))%Z with (-(3*h))%Z by lia.
  pose proof (Rabs_pos dt). nra.
Qed.


Definition good_inverse (n : nat) (K : R) (m : list (list FL)) : Prop :=
  exists y, p_inverse AR (Bdiv mode_NE) (fl_is_zero prec emax) n m = Some y /\ rect n n y /\
  forall i j, (i < n)%nat -> (j < n)%nat ->
  fin (at_ (m_mul AR n n n m y) i j) /\ Rabs (B2R (at_ (m_mul AR n n n m y) i j) - is_id i j) <= K * b2 (5 - prec).

Lemma inv1 K m : rect 1 1 m -> Forall (Forall (moderate h)) m -> 0 <= K <= b2 kk -> conditioned 1 K (rat2 m) -> good_inverse 1 K m.
Proof.
  intros R Hm HK [C1 C2].
  pose proof (at2_P (moderate h) 1 1 m 0 0 R Hm ltac:(flia) ltac:(flia)) as M00.
  destruct (mod_rng _ _ M00) as [F00 R00].
  assert (ED : rdet 1 (rat2 m) = rat2 m 0 0) by (real_unf; ring). rewrite ED in *.
  specialize (C2 0%nat 0%nat ltac:(flia) ltac:(flia)). real_unf_in C2.
  assert (Ad : ap 7 (Rabs (rat2 m 0 0)) (rat2 m 0 0) (B2R (at2 AR m 0 0))).
  { apply ap_weaken with 0%nat; [|flia]. apply ap_exact. apply Rle_refl. }
  assert (Hp : Rabs (rat2 m 0 0) <= K * Rabs (rat2 m 0 0)) by lra.
  exists [[Bdiv mode_NE Bone (at2 AR m 0 0)]]. split; [|split].
  - cbn [p_inverse]. rewrite is_zero_false; [reflexivity|exact F00|]. exact C1.
  - split; [reflexivity|repeat constructor].
  - intros i j Hi Hj. assert (i = 0%nat) by flia. assert (j = 0%nat) by flia. subst. unfold at_.
    assert (F1 : fin (@Bone prec emax _ _)) by apply is_finite_Bone. assert (B1 : B2R (@Bone prec emax _ _) = 1) by apply Bone_correct.
    apply (adj_core 1 (at2 AR m 0) (fun k => at2 AR [[Bdiv mode_NE Bone (at2 AR m 0 0)]] k 0) (fun _ => Bone)
       (at2 AR m 0 0) (fun _ => 1) (fun _ => 1) (rat2 m 0 0) (Rabs (rat2 m 0 0)) K 1); auto.
    + intros k Hk. assert (k = 0%nat) by flia. subst. rewrite B1. split; [exact F00|]. split; [exact R00|]. split; [exact F1|].
      split; [apply rng_weaken with (1 := rng1); flia|]. split; [|reflexivity].
      apply ap_weaken with 0%nat; [|flia]. apply ap_exact. rewrite Rabs_R1. lra.
    + unfold rsum; cbn [seq fold_left]. rewrite <- ?rat2E. lra.
    + rewrite Rabs_R1. lra.
    + apply Rle_trans with (1 := rng_up _ _ _ R00). apply bpow_le. flia.
    + destruct R00 as [E|[E _]]; [now elim C1|]. apply Rle_trans with (2 := E). apply bpow_le. flia.
Qed.

Lemma rng0 lo hi x : rng lo hi x -> x = 0 \/ b2 lo <= Rabs x.
Proof. intros [H|[H _]]; auto. Qed.
Definition adj2 (m : list (list FL)) : list (list FL) :=
  [[at2 AR m 1 1; Bopp (at2 AR m 0 1)]; [Bopp (at2 AR m 1 0); at2 AR m 0 0]].
Definition adjr2 (m : list (list FL)) (k j : nat) : R :=
  match k, j with 0%nat, 0%nat => rat2 m 1 1 | 0%nat, _ => - rat2 m 0 1 | _, 0%nat => - rat2 m 1 0 | _, _ => rat2 m 0 0 end.
Lemma inv2 K m : rect 2 2 m -> Forall (Forall (moderate h)) m -> 0 <= K <= b2 kk -> conditioned 2 K (rat2 m) -> good_inverse 2 K m.
Proof.
  intros R Hm HK [C1 C2].
  assert (Hmod : forall i j, (i < 2)%nat -> (j < 2)%nat -> moderate h (at2 AR m i j)) by (intros; apply (at2_P _ 2 2); auto).
  assert (Hf : forall i j, (i < 2)%nat -> (j < 2)%nat -> fin (at2 AR m i j)) by (intros; now apply (mod_rng h), Hmod).
  assert (Hr : forall i j, (i < 2)%nat -> (j < 2)%nat -> rng (-h) h (rat2 m i j)) by (intros; now apply (mod_rng h), Hmod).
  pose proof (ms_ap h HH _ _ _ _ (Hmod 0%nat 0%nat ltac:(flia) ltac:(flia)) (Hmod 1%nat 1%nat ltac:(flia) ltac:(flia))
      (Hmod 1%nat 0%nat ltac:(flia) ltac:(flia)) (Hmod 0%nat 1%nat ltac:(flia) ltac:(flia))) as (Fd & Ad).
  change (a_sub AR _ _) with (det_2 AR m) in Fd, Ad.
  apply (ap_weaken _ 7) in Ad; [|flia]. cbv zeta in Ad. rewrite <- !rat2E in Ad.
  assert (ED : rdet 2 (rat2 m) = rat2 m 0 0 * rat2 m 1 1 - rat2 m 1 0 * rat2 m 0 1)  by (real_unf; ring). rewrite ED in *.
  set (dt := rat2 m 0 0 * rat2 m 1 1 - rat2 m 1 0 * rat2 m 0 1) in *.
  assert (Hp : Rabs (rat2 m 0 0 * rat2 m 1 1) + Rabs (rat2 m 1 0 * rat2 m 0 1) <= K * Rabs dt).
  { pose proof (C2 0%nat 0%nat ltac:(flia) ltac:(flia)) as C. real_unf_in C. rewrite !Rabs_mult. lra. }
  assert (Hlow : b2 (-(3*h+kk)) <= Rabs dt).
  { apply low_perm with (1 := HK) (2 := Hp).
    pose proof (rng_mul _ _ _ _ _ _ (Hr 0%nat 0%nat ltac:(flia) ltac:(flia)) (Hr 1%nat 1%nat ltac:(flia) ltac:(flia))) as G1.
    pose proof (rng_mul _ _ _ _ _ _ (Hr 1%nat 0%nat ltac:(flia) ltac:(flia)) (Hr 0%nat 1%nat ltac:(flia) ltac:(flia))) as G2.
    assert (Hb : b2 (-(3*h)) <= b2 (- h + - h)) by (apply bpow_le; flia).
    pose proof (Rabs_pos (rat2 m 0 0 * rat2 m 1 1)). pose proof (Rabs_pos (rat2 m 1 0 * rat2 m 0 1)).
    destruct (rng0 _ _ _ G1) as [E1|E1]; [|lra]. destruct (rng0 _ _ _ G2) as [E2|E2]; [|lra]. elim C1. unfold dt. lra. }
  exists (map (map (fun e => Bdiv mode_NE e (det_2 AR m))) (adj2 m)). split; [|split].
  - cbn [p_inverse]. cbv zeta. rewrite is_zero_false; [reflexivity|exact Fd|]. exact (det_nz _ _ _ _ HK Ad Hp C1).
  - split; [reflexivity|repeat constructor].
  - intros i j Hi Hj. unfold at_, m_mul. rewrite (at2_mat AR 2 2 _ i j Hi Hj).
    apply (adj_core 2 (at2 AR m i) (fun k => at2 AR (map (map (fun e => Bdiv mode_NE e (det_2 AR m))) (adj2 m)) k j)
       (fun k => at2 AR (adj2 m) k j)
       (det_2 AR m) (fun k => adjr2 m k j) (fun k => Rabs (adjr2 m k j)) dt (Rabs (rat2 m 0 0 * rat2 m 1 1) + Rabs (rat2 m 1 0 * rat2 m 0 1)) K (is_id i j)); auto.
    + intros k Hk. split; [now apply Hf|]. split; [now apply Hr|].
      assert (G : fin (at2 AR (adj2 m) k j) /\ B2R (at2 AR (adj2 m) k j) = adjr2 m k j /\ rng (-h) h (adjr2 m k j)).
      { destruct k as [|[|k]]; [| |flia]; (destruct j as [|[|j]]; [| |flia]); cbn [adj2 adjr2 at2 nth];
        (split; [first [apply Hf; flia|apply opp_fin; apply Hf; flia]|]); (split; [first [reflexivity|apply B2R_Bopp]|]);
        first [apply Hr; flia|apply rng_opp; apply Hr; flia]. }
      destruct G as (G1 & G2 & G3). rewrite G2. split; [exact G1|]. split; [apply rng_weaken with (1 := G3); flia|].
      split; [apply ap_weaken with 0%nat; [apply ap_exact, Rle_refl|flia]|].
      destruct k as [|[|k]]; [| |flia]; (destruct j as [|[|j]]; [| |flia]); reflexivity.
    + pose proof (C2 i j Hi Hj) as C. real_unf_in C. unfold rsum; cbn [seq fold_left].
      destruct j as [|[|j]]; [| |flia]; cbn [adjr2]; rewrite ?Rabs_Ropp; rewrite <- ?rat2E; lra.
    + unfold rsum, dt; cbn [seq fold_left]. rewrite <- ?rat2E.
      destruct i as [|[|i]]; [| |flia]; (destruct j as [|[|j]]; [| |flia]); cbn [adjr2 is_id]; cbv [is_id Nat.eqb]; ring.
    + apply is_id_le.
    + unfold det_2.
      destruct (prod_ap h HH _ _ (Hmod 0%nat 0%nat ltac:(flia) ltac:(flia)) (Hmod 1%nat 1%nat ltac:(flia) ltac:(flia))) as (F1 & B1 & _).
      destruct (prod_ap h HH _ _ (Hmod 1%nat 0%nat ltac:(flia) ltac:(flia)) (Hmod 0%nat 1%nat ltac:(flia) ltac:(flia))) as (F2 & B2' & _).
      destruct (fsub_spec _ _ (h + h) F1 F2 B1 B2') as (_ & B & _); [flia|]. apply Rle_trans with (1 := B). apply bpow_le. flia.
Qed.

Lemma trip_ap x y z : moderate h x -> moderate h y -> moderate h z ->
  let w := a_mul AR (a_mul AR x y) z in
  fin w /\ Rabs (B2R w) <= b2 (3*h) /\ ap 2 (Rabs (B2R x * B2R y * B2R z)) (B2R x * B2R y * B2R z) (B2R w).
Proof.
  intros Hx Hy Hz w. destruct (mod_rng _ _ Hx) as [Fx Rx], (mod_rng _ _ Hy) as [Fy Ry], (mod_rng _ _ Hz) as [Fz Rz].
  destruct (fmul_spec _ _ _ _ _ _ Fx Fy Rx Ry) as (F1 & R1 & e & He & E1); try flia.
  destruct (fmul_spec _ _ _ _ _ _ F1 Fz R1 Rz) as (F2 & R2 & e' & He' & E2); try flia.
  split; [exact F2|]. split; [apply Rle_trans with (1 := rng_up _ _ _ R2); apply bpow_le; lia|]. unfold w. rewrite E2.
  rewrite (Rabs_mult (_ * _) (B2R z)). apply (ap_mul 1 0); [|apply ap_exact, Rle_refl|exact He']. rewrite E1.
  apply ap_rnd; [apply ap_exact, Rle_refl|exact He].
Qed.
Lemma chain_add k hb s t v w x y : fin x -> Rabs (B2R x) <= b2 hb -> ap (S (S k)) s v (B2R x) ->
  fin y -> Rabs (B2R y) <= b2 (3*h) -> ap 2 t w (B2R y) -> (3*h <= hb <= emax - 2)%Z ->
  fin (a_add AR x y) /\ Rabs (B2R (a_add AR x y)) <= b2 (hb + 1) /\ ap (S (S (S k))) (s + t) (v + w) (B2R (a_add AR x y)).
Proof.
  intros Fx Bx Ax Fy By Ay Hh. assert (By' : Rabs (B2R y) <= b2 hb) by (apply Rle_trans with (1 := By); apply bpow_le; flia).
  destruct (fadd_spec x y hb Fx Fy Bx By') as (F & B & (e & He & E) & _); [flia|]. split; [exact F|]. split; [exact B|]. rewrite E.
  replace (S (S (S k))) with (S (Nat.max (S (S k)) 2)) by flia. now apply ap_add.
Qed.
Lemma chain_sub k hb s t v w x y : fin x -> Rabs (B2R x) <= b2 hb -> ap (S (S k)) s v (B2R x) ->
  fin y -> Rabs (B2R y) <= b2 (3*h) -> ap 2 t w (B2R y) -> (3*h <= hb <= emax - 2)%Z ->
  fin (a_sub AR x y) /\ Rabs (B2R (a_sub AR x y)) <= b2 (hb + 1) /\ ap (S (S (S k))) (s + t) (v - w) (B2R (a_sub AR x y)).
Proof.
  intros Fx Bx Ax Fy By Ay Hh. assert (By' : Rabs (B2R y) <= b2 hb) by (apply Rle_trans with (1 := By); apply bpow_le; flia).
  destruct (fsub_spec x y hb Fx Fy Bx By') as (F & B & (e & He & E) & _); [flia|]. split; [exact F|]. split; [exact B|]. rewrite E.
  replace (S (S (S k))) with (S (Nat.max (S (S k)) 2)) by flia. now apply ap_sub.
Qed.
Definition tr (m : list (list FL)) i j k l p q : R := rat2 m i j * rat2 m k l * rat2 m p q.
Definition dt3 m := tr m 0 0 1 1 2 2 + tr m 0 1 1 2 2 0 + tr m 0 2 1 0 2 1 - tr m 0 2 1 1 2 0 - tr m 0 1 1 0 2 2 - tr m 0 0 1 2 2 1.
Definition pm3 m := Rabs (tr m 0 0 1 1 2 2) + Rabs (tr m 0 1 1 2 2 0) + Rabs (tr m 0 2 1 0 2 1) + Rabs (tr m 0 2 1 1 2 0) + Rabs (tr m 0 1 1 0 2 2) + Rabs (tr m 0 0 1 2 2 1).
Lemma det3_ap m : rect 3 3 m -> Forall (Forall (moderate h)) m ->
  fin (det_3 AR m) /\ Rabs (B2R (det_3 AR m)) <= b2 (3*h+5) /\ ap 7 (pm3 m) (dt3 m) (B2R (det_3 AR m)).
Proof.
  intros R Hm.
  assert (Hmod : forall i j, (i < 3)%nat -> (j < 3)%nat -> moderate h (at2 AR m i j)) by (intros; apply (at2_P _ 3 3); auto).
  assert (T : forall i j k l p q, (i < 3)%nat -> (j < 3)%nat -> (k < 3)%nat -> (l < 3)%nat -> (p < 3)%nat -> (q < 3)%nat ->
    let w := a_mul AR (a_mul AR (at2 AR m i j) (at2 AR m k l)) (at2 AR m p q) in
    fin w /\ Rabs (B2R w) <= b2 (3*h) /\ ap 2 (Rabs (tr m i j k l p q)) (tr m i j k l p q) (B2R w)).
  { intros. apply trip_ap; apply Hmod; assumption. }
  unfold det_3, dt3, pm3. cbv zeta.
  destruct (T 0 0 1 1 2 2)%nat as (F1 & B1 & A1); try flia. destruct (T 0 1 1 2 2 0)%nat as (F2 & B2' & A2); try flia.
  destruct (T 0 2 1 0 2 1)%nat as (F3 & B3 & A3); try flia. destruct (T 0 2 1 1 2 0)%nat as (F4 & B4 & A4); try flia.
  destruct (T 0 1 1 0 2 2)%nat as (F5 & B5 & A5); try flia. destruct (T 0 0 1 2 2 1)%nat as (F6 & B6 & A6); try flia.
  destruct (chain_add 0 (3*h) _ _ _ _ _ _ F1 B1 A1 F2 B2' A2) as (F7 & B7 & A7); [flia|].
  destruct (chain_add _ _ _ _ _ _ _ _ F7 B7 A7 F3 B3 A3) as (F8 & B8 & A8); [flia|].
  destruct (chain_sub _ _ _ _ _ _ _ _ F8 B8 A8 F4 B4 A4) as (F9 & B9 & A9); [flia|].
  destruct (chain_sub _ _ _ _ _ _ _ _ F9 B9 A9 F5 B5 A5) as (F10 & B10 & A10); [flia|].
  destruct (chain_sub _ _ _ _ _ _ _ _ F10 B10 A10 F6 B6 A6) as (F11 & B11 & A11); [flia|].
  split; [exact F11|]. split; [|exact A11]. apply Rle_trans with (1 := B11). apply bpow_le. lia.
Qed.
Lemma ms_rng a b x y : moderate h a -> moderate h b -> moderate h x -> moderate h y ->
  rng (-(2*h+prec-1)) (2*h+1) (B2R (a_sub AR (a_mul AR a b) (a_mul AR x y))).
Proof.
  intros Ha Hb Hx Hy. destruct (mod_rng _ _ Ha) as [Fa Ra], (mod_rng _ _ Hb) as [Fb Rb], (mod_rng _ _ Hx) as [Fx Rx], (mod_rng _ _ Hy) as [Fy Ry].
  destruct (fmul_spec _ _ _ _ _ _ Fa Fb Ra Rb) as (F1 & R1 & _); try flia.
  destruct (fmul_spec _ _ _ _ _ _ Fx Fy Rx Ry) as (F2 & R2 & _); try flia.
  apply (rng_weaken _ _ _ _ _ (fsub_rng _ _ _ _ F1 F2 R1 R2 ltac:(flia) ltac:(flia) ltac:(flia))); lia.
Qed.
(** Rows and columns left after removing row j and column k: entry (k, j) of the adjugate. *)
Definition ix (k j : nat) : (nat * nat * nat * nat) * (nat * nat * nat * nat) :=
  match k, j with
  | 0, 0 => ((1, 1, 2, 2), (1, 2, 2, 1)) | 0, 1 => ((0, 2, 2, 1), (0, 1, 2, 2)) | 0, _ => ((0, 1, 1, 2), (0, 2, 1, 1))
  | 1, 0 => ((1, 2, 2, 0), (1, 0, 2, 2)) | 1, 1 => ((0, 0, 2, 2), (0, 2, 2, 0)) | 1, _ => ((0, 2, 1, 0), (0, 0, 1, 2))
  | _, 0 => ((1, 0, 2, 1), (1, 1, 2, 0)) | _, 1 => ((0, 1, 2, 0), (0, 0, 2, 1)) | _, _ => ((0, 0, 1, 1), (0, 1, 1, 0))
  end%nat.
Definition mh3 (m : list (list FL)) k j : FL := let '((a, b, c, d), (e, f, g, h)) := ix k j in p_ms AR m a b c d e f g h.
Definition mr3 (m : list (list FL)) k j : R := let '((a, b, c, d), (e, f, g, h)) := ix k j in rat2 m a b * rat2 m c d - rat2 m e f * rat2 m g h.
Definition pr3 (m : list (list FL)) k j : R := let '((a, b, c, d), (e, f, g, h)) := ix k j in Rabs (rat2 m a b * rat2 m c d) + Rabs (rat2 m e f * rat2 m g h).
Lemma inv3 K m : rect 3 3 m -> Forall (Forall (moderate h)) m -> 0 <= K <= b2 kk -> conditioned 3 K (rat2 m) -> good_inverse 3 K m.
Proof.
  intros R Hm HK [C1 C2].
  assert (Hmod : forall i j, (i < 3)%nat -> (j < 3)%nat -> moderate h (at2 AR m i j)) by (intros; apply (at2_P _ 3 3); auto).
  assert (Hr : forall i j, (i < 3)%nat -> (j < 3)%nat -> rng (-h) h (rat2 m i j)) by (intros; now apply (mod_rng h), Hmod).
  destruct (det3_ap m R Hm) as (Fd & Bd & Ad).
  assert (ED : rdet 3 (rat2 m) = dt3 m) by (unfold dt3, tr; real_unf; ring).
  rewrite ED in C1. assert (C2' := C2). clear C2. 
  assert (Hp : pm3 m <= K * Rabs (dt3 m)).
  { pose proof (C2' 0%nat 0%nat ltac:(flia) ltac:(flia)) as C. rewrite ED in C. real_unf_in C. unfold pm3, tr. rewrite !Rabs_mult. lra. }
  assert (Hlow : b2 (-(3*h+kk)) <= Rabs (dt3 m)).
  { apply low_perm with (1 := HK) (2 := Hp).
    assert (G : forall i j k l p q, (i < 3)%nat -> (j < 3)%nat -> (k < 3)%nat -> (l < 3)%nat -> (p < 3)%nat -> (q < 3)%nat ->
       tr m i j k l p q = 0 \/ b2 (-(3*h)) <= Rabs (tr m i j k l p q)).
    { intros. apply (rng0 _ (3*h)). unfold tr. apply (rng_weaken (-h + -h + -h) (h + h + h)); [|lia|lia]. apply (rng_mul (-h + -h) (h + h) (-h) h); [apply (rng_mul (-h) h (-h) h)|]; apply Hr; assumption. }
    assert (Q : forall i j k l p q, 0 <= Rabs (tr m i j k l p q)) by (intros; apply Rabs_pos).
    unfold pm3. pose proof (Q 0 0 1 1 2 2)%nat. pose proof (Q 0 1 1 2 2 0)%nat. pose proof (Q 0 2 1 0 2 1)%nat.
    pose proof (Q 0 2 1 1 2 0)%nat. pose proof (Q 0 1 1 0 2 2)%nat. pose proof (Q 0 0 1 2 2 1)%nat.
    destruct (G 0 0 1 1 2 2)%nat as [E1|E1]; try flia; [|lra]. destruct (G 0 1 1 2 2 0)%nat as [E2|E2]; try flia; [|lra].
    destruct (G 0 2 1 0 2 1)%nat as [E3|E3]; try flia; [|lra]. destruct (G 0 2 1 1 2 0)%nat as [E4|E4]; try flia; [|lra].
    destruct (G 0 1 1 0 2 2)%nat as [E5|E5]; try flia; [|lra]. destruct (G 0 0 1 2 2 1)%nat as [E6|E6]; try flia; [|lra].
    elim C1. unfold dt3. lra. }
  set (y := mat 3 3 (fun k j => Bdiv mode_NE (mh3 m k j) (det_3 AR m))).
  exists y. split; [|split].
  - cbn [p_inverse]. cbv zeta. rewrite is_zero_false; [reflexivity|exact Fd|]. exact (det_nz _ _ _ _ HK Ad Hp C1).
  - apply mat_rect.
  - intros i j Hi Hj. unfold at_, m_mul. rewrite (at2_mat AR 3 3 _ i j Hi Hj).
    apply (adj_core 3 (at2 AR m i) (fun k => at2 AR y k j) (fun k => mh3 m k j)
       (det_3 AR m) (fun k => mr3 m k j) (fun k => pr3 m k j) (dt3 m) (pm3 m) K (is_id i j)).
    + flia.
    + exact HK.
    + intros k Hk. destruct (mod_rng _ _ (Hmod i k Hi Hk)) as [Fx Rx]. split; [exact Fx|]. split; [exact Rx|].
      assert (G : forall a b c d e f g w, (a < 3)%nat -> (b < 3)%nat -> (c < 3)%nat -> (d < 3)%nat -> (e < 3)%nat -> (f < 3)%nat -> (g < 3)%nat -> (w < 3)%nat ->
        let z := p_ms AR m a b c d e f g w in
        fin z /\ rng (-(2*h+prec-1)) (2*h+1) (B2R z) /\ ap 2 (Rabs (rat2 m a b * rat2 m c d) + Rabs (rat2 m e f * rat2 m g w)) (rat2 m a b * rat2 m c d - rat2 m e f * rat2 m g w) (B2R z)).
      { intros. split; [|split].
        - apply (ms_ap h HH); try apply Hmod; try assumption; flia.
        - apply ms_rng; apply Hmod; assumption.
        - apply (ms_ap h HH); try apply Hmod; try assumption; flia. }
      assert (H3 : fin (mh3 m k j) /\ rng (-(2*h+prec-1)) (2*h+1) (B2R (mh3 m k j)) /\ ap 2 (pr3 m k j) (mr3 m k j) (B2R (mh3 m k j))).
      { destruct k as [|[|[|k]]]; [| | |flia]; (destruct j as [|[|[|j]]]; [| | |flia]); apply G; flia. }
      destruct H3 as (H1 & H2 & H3). split; [exact H1|]. split; [exact H2|]. split; [exact H3|].
      unfold y. now rewrite (at2_mat AR 3 3 _ k j Hk Hj).
    + exact Fd.
    + exact Ad.
    + exact Hp.
    + pose proof (C2' i j Hi Hj) as C. rewrite ED in C. real_unf_in C. unfold rsum; cbn [seq fold_left]. rewrite <- ?rat2E.
      destruct j as [|[|[|j]]]; [| | |flia]; cbv [pr3 ix]; rewrite !Rabs_mult; lra.
    + unfold rsum, dt3, tr; cbn [seq fold_left]. rewrite <- ?rat2E.
      destruct i as [|[|[|i]]]; [| | |flia]; (destruct j as [|[|[|j]]]; [| | |flia]); cbv [mr3 ix is_id Nat.eqb]; ring.
    + apply is_id_le.
    + exact Bd.
    + exact Hlow.
Qed.

(** ** The determinant of sizes 2 and 3 *)
(** The FL determinant differs from the exact one by at most 7 units in 2^-52 of the permanent
    of the absolute values. *)
Lemma g_determinant : forall S (c : cfg) (d : ety S FL) (n : nat) m (s : S),
  (1 <= n <= 3)%nat -> rect n n m -> Forall (Forall (moderate h)) m ->
  exists x, det c d OP n m s = (Ok x, s) /\ is_finite x = true /\
  Rabs (B2R x - rdet n (rat2 m)) <= 7 * b2 (1 - prec) * rperm n (fun i j => Rabs (rat2 m i j)).
Proof.
  intros S c d n m s Hn R Hm. pose proof (W_big c) as HW. exists (p_det AR (Bdiv mode_NE) (fl_is_zero prec emax) n m).
  split; [apply (det_p AR (Bdiv mode_NE) (fl_is_zero prec emax) c d OP (proj1 (fl_exact prec emax Hgt Hlt)) (proj2 (fl_exact prec emax Hgt Hlt)) (fun _ => eq_refl)); auto; flia|].
  assert (E : forall s v r, ap 7 s v r -> Rabs (r - v) <= 7 * b2 (1 - prec) * s).
  { intros s0 v r H. pose proof (ap_pos _ _ _ _ H). apply (ap_err 0 7) in H; [|pose proof small8; cbn; lia|flia]. cbn [Nat.add] in H. replace (INR 7) with 7 in H by (cbn; lra). exact H. }
  destruct n as [|[|[|[|n]]]]; [flia| | | |flia]; cbn [p_det].
  - destruct (mod_rng _ _ (at2_P _ 1 1 m 0 0 R Hm ltac:(flia) ltac:(flia))) as [F _]. split; [exact F|]. apply E.
    replace (rperm 1 (fun i j => Rabs (rat2 m i j))) with (Rabs (rat2 m 0 0)) by (real_unf; ring).
    replace (rdet 1 (rat2 m)) with (rat2 m 0 0) by (real_unf; ring). apply ap_weaken with 0%nat; [|flia]. apply ap_exact, Rle_refl.
  - assert (Hmod : forall i j, (i < 2)%nat -> (j < 2)%nat -> moderate h (at2 AR m i j)) by (intros; apply (at2_P _ 2 2); auto).
    destruct (ms_ap h HH _ _ _ _ (Hmod 0%nat 0%nat ltac:(flia) ltac:(flia)) (Hmod 1%nat 1%nat ltac:(flia) ltac:(flia))
      (Hmod 1%nat 0%nat ltac:(flia) ltac:(flia)) (Hmod 0%nat 1%nat ltac:(flia) ltac:(flia))) as (F & A). split; [exact F|]. apply E.
    replace (rperm 2 (fun i j => Rabs (rat2 m i j))) with (Rabs (rat2 m 0 0 * rat2 m 1 1) + Rabs (rat2 m 1 0 * rat2 m 0 1)) by (rewrite !Rabs_mult; real_unf; ring).
    replace (rdet 2 (rat2 m)) with (rat2 m 0 0 * rat2 m 1 1 - rat2 m 1 0 * rat2 m 0 1) by (real_unf; ring).
    apply ap_weaken with 2%nat; [exact A|flia].
  - destruct (det3_ap m R Hm) as (F & _ & A). split; [exact F|]. apply E.
    replace (rperm 3 (fun i j => Rabs (rat2 m i j))) with (pm3 m) by (unfold pm3, tr; rewrite !Rabs_mult; real_unf; ring).
    replace (rdet 3 (rat2 m)) with (dt3 m) by (unfold dt3, tr; real_unf; ring). exact A.
Qed.

(** ** C66 for n <= 3 *)
(** An n x n FL matrix (n = 1, 2, 3) whose entries are zero or between 2^-100 and 2^100 in
    absolute value and whose permanental condition number is at most K <= 2^40 is found
    invertible, and the FL product with the computed inverse is within K * 2^-48 of the
    identity.  (For n = 4 this is false even for K = 3: C66_refuted.) *)
Lemma g_small : forall S (c : cfg) (d : ety S FL) (n : nat) (K : R) m (s : S),
  (1 <= n <= 3)%nat -> rect n n m -> Forall (Forall (moderate h)) m -> 0 <= K <= b2 kk -> conditioned n K (rat2 m) ->
  exists y p, inverse c d OP n m s = (Ok (Some y), s) /\ mmul_rr c d OP n n n m y s = (Ok p, s) /\
  forall i j, (i < n)%nat -> (j < n)%nat ->
  is_finite (at2 AR p i j) = true /\ Rabs (rat2 p i j - (if (i =? j)%nat then 1 else 0)) <= K * b2 (5 - prec).
Proof.
  intros S c d n K m s Hn R Hm HK HC. pose proof (W_big c) as HW.
  assert (G : good_inverse n K m).
  { destruct n as [|[|[|[|n]]]]; [flia|now apply inv1|now apply inv2|now apply inv3|flia]. }
  destruct G as (y & Ey & Ry & G). exists y, (m_mul AR n n n m y). split; [|split].
  - rewrite <- Ey. apply (inverse_p AR (Bdiv mode_NE) (fl_is_zero prec emax) c d OP (proj1 (fl_exact prec emax Hgt Hlt)) (proj2 (fl_exact prec emax Hgt Hlt)) (fun _ => eq_refl)); auto; flia.
  - exact (sim_eqm _ _ (sim_mmul_rr false eq c d OP AR (exact_sim_semi _ _ (ex_semi _ _ (proj1 (fl_exact prec emax Hgt Hlt)))) n n n m y m y
      (Forall2_eq2 _) (Forall2_eq2 _) R Ry ltac:(flia) ltac:(flia) ltac:(flia)) s).
  - exact G.
Qed.

End Format.

(** ** C69, the determinant of sizes 1, 2 and 3 *)
(** The determinant differs from the exact one by at most 7 epsilon times the permanent of the
    absolute values.  Entries are zero or between 2^-h and 2^h, where 6h + p + 6 <= emax
    (h <= 16 for f32, h <= 160 for f64). *)
Theorem C69_determinant : forall (t : float_type) S (h : Z) (c : cfg) (d : ety S (float t)) (n : nat) m (s : S),
  (0 <= h)%Z -> (6 * h + fprec t + 6 <= femax t)%Z ->
  (1 <= n <= 3)%nat -> rect n n m -> Forall (Forall (moderate h)) m ->
  exists x, det c d (float_ops t) n m s = (Ok x, s) /\ is_finite x = true /\
  Rabs (B2R x - rdet n (rat2 m)) <= 7 * epsilon t * rperm n (fun i j => Rabs (rat2 m i j)).
Proof.
  intros t S h c d n m s H1 H2. refine (g_determinant h 0 _ S c d n m s).
  pose proof (@ok_prec _ _ (float_ok t)). lia.
Qed.
Print Assumptions C69_determinant.

(** ** C66 for n <= 3 *)
(** An n x n float matrix (n = 1, 2, 3) whose entries are zero or between 2^-h and 2^h in
    absolute value and whose permanental condition number is at most K <= 2^k is found
    invertible, and the computed product with the computed inverse is within 16 K epsilon of
    the identity.  (f32: h = 15, k = 11; f64: h = 100, k = 40.  For n = 4 this is false even
    for K = 3: C66_refuted.) *)
Theorem C66_small_partial : forall (t : float_type) S (h k : Z) (c : cfg) (d : ety S (float t)) (n : nat) (K : R) m (s : S),
  (0 <= h)%Z -> (0 <= k <= fprec t - 13)%Z -> (6 * h + Z.max k 4 + fprec t + 2 <= femax t)%Z ->
  (1 <= n <= 3)%nat -> rect n n m -> Forall (Forall (moderate h)) m -> 0 <= K <= b2 k -> conditioned n K (rat2 m) ->
  exists y p, inverse c d (float_ops t) n m s = (Ok (Some y), s) /\ mmul_rr c d (float_ops t) n n n m y s = (Ok p, s) /\
  forall i j, (i < n)%nat -> (j < n)%nat ->
  is_finite (at2 (float_arith t) p i j) = true /\ Rabs (rat2 p i j - (if (i =? j)%nat then 1 else 0)) <= 16 * K * epsilon t.
Proof.
  intros t S h k c d n K m s H1 H2 H3 Hn R Hm HK HC.
  replace (16 * K * epsilon t) with (K * b2 (5 - fprec t)).
  - refine (g_small h k _ S c d n K m s Hn R Hm HK HC). lia.
  - unfold epsilon. replace (5 - fprec t)%Z with (4 + (1 - fprec t))%Z by lia. rewrite (bpow_plus radix2 4). change (b2 4) with 16. ring.
Qed.
Print Assumptions C66_small_partial.

(** ** Concrete instances of the hypotheses *)
Definition f2 : f64 := @B754_finite 53 1024 false (2 ^ 52) (-51) eq_refl.     (* 2 *)
Lemma f2_val : B2R f2 = 2.
Proof.
  unfold f2, B2R, F2R. cbn [cond_Zopp Fnum Fexp]. change (IZR (Z.pos (2 ^ 52))) with (IZR (2 ^ 52)).
  change (2 ^ 52)%Z with (radix_val radix2 ^ 52)%Z. rewrite (IZR_Zpower radix2 52) by discriminate. rewrite <- bpow_plus. reflexivity.
Qed.
Lemma mod1 h : (0 <= h)%Z -> moderate h f1.
Proof.
  intros H. split; [reflexivity|]. right. rewrite f1_val, Rabs_R1. replace 1 with (b2 0) by reflexivity. split; apply bpow_le; lia.
Qed.
Lemma mod2 h : (1 <= h)%Z -> moderate h f2.
Proof.
  intros H. split; [reflexivity|]. right. rewrite f2_val, Rabs_pos_eq by lra. replace 2 with (b2 1) by reflexivity. split; apply bpow_le; lia.
Qed.
Ltac mods := repeat first [apply Forall_nil|apply Forall_cons|apply mod1|apply mod2|lia].
(** [[2, 1], [1, 1]] has determinant 1 and condition number 4. *)
Definition ex66 : list (list f64) := [[f2; f1]; [f1; f1]].
Lemma ex66_mod : Forall (Forall (moderate 100)) ex66.
Proof. mods. Qed.
Example C66_ex : forall S (c : cfg) (d : ety S f64) (s : S),
  exists y p, inverse c d f64_ops 2 ex66 s = (Ok (Some y), s) /\ mmul_rr c d f64_ops 2 2 2 ex66 y s = (Ok p, s) /\
  Rabs (rat2 p 0 0 - 1) <= 16 * 4 * epsilon F64 /\ Rabs (rat2 p 0 1 - 0) <= 16 * 4 * epsilon F64.
Proof.
  intros S c d s.
  assert (E00 : rat2 ex66 0 0 = 2) by exact f2_val. assert (E01 : rat2 ex66 0 1 = 1) by exact f1_val.
  assert (E10 : rat2 ex66 1 0 = 1) by exact f1_val. assert (E11 : rat2 ex66 1 1 = 1) by exact f1_val.
  assert (A1 : Rabs 1 = 1) by apply Rabs_R1. assert (A2 : Rabs 2 = 2) by (apply Rabs_pos_eq; lra).
  assert (ED : rdet 2 (rat2 ex66) = 1) by (real_unf; rewrite E00, E01, E10, E11; ring).
  assert (HC : conditioned 2 4 (rat2 ex66)).
  { split; [rewrite ED; lra|]. intros i k Hi Hk. rewrite ED, A1. real_unf.
    do 2 (destruct i as [|i]; [do 2 (destruct k as [|k]; [rewrite ?E00, ?E01, ?E10, ?E11, ?A1, ?A2; lra|]); lia|]). lia. }
  destruct (C66_small_partial F64 S 100 40 c d 2 4 ex66 s) as (y & p & H1 & H2 & H3);
    [discriminate|split; discriminate|discriminate|lia|split; [reflexivity|repeat constructor]|exact ex66_mod| |exact HC|].
  - split; [lra|]. change 4 with (b2 2). apply bpow_le. discriminate.
  - exists y, p. split; [exact H1|]. split; [exact H2|]. split; [apply (H3 0%nat 0%nat)|apply (H3 0%nat 1%nat)]; lia.
Qed.
Example C69_ex : forall S (s : S), exists z, vdot f64_ops 3 [f1; f2; f1] [f2; f2; f1] s = (Ok z, s) /\ Rabs (B2R z - 7) <= b2 (-47).
Proof.
  intros S s. destruct (C69_dot F64 S 100 3 [f1; f2; f1] [f2; f2; f1] s) as (z & H1 & _ & H2);
    [discriminate|discriminate|discriminate|reflexivity|reflexivity|mods|mods|].
  exists z. split; [exact H1|]. unfold rsum in H2. cbn [seq fold_left] in H2. unfold rat1, at1 in H2. cbn [nth] in H2.
  change (@B2R (fprec F64) (femax F64)) with (@B2R 53 1024) in H2. rewrite f1_val, f2_val in H2. unfold epsilon in H2. change (1 - fprec F64)%Z with (-52)%Z in H2.
  replace (0 + 1 * 2 + 2 * 2 + 1 * 1) with 7 in H2 by ring. apply Rle_trans with (1 := H2).
  rewrite !Rabs_pos_eq by lra. change (3 + 1)%nat with 4%nat. replace (INR 4) with 4 by (cbn; lra).
  change (-47)%Z with (5 + -52)%Z. rewrite (bpow_plus radix2 5). change (b2 5) with 32. pose proof (bpow_gt_0 radix2 (-52)). lra.
Qed.

(** The same in f32. *)
Definition g1 : float F32 := @B754_finite 24 128 false (2 ^ 23) (-23) eq_refl.     (* 1 *)
Definition g2 : float F32 := @B754_finite 24 128 false (2 ^ 23) (-22) eq_refl.     (* 2 *)
Lemma g1_val : B2R g1 = 1.
Proof.
  unfold g1, B2R, F2R. cbn [cond_Zopp Fnum Fexp]. change (IZR (Z.pos (2 ^ 23))) with (IZR (2 ^ 23)).
  change (2 ^ 23)%Z with (radix_val radix2 ^ 23)%Z. rewrite (IZR_Zpower radix2 23) by discriminate. rewrite <- bpow_plus. reflexivity.
Qed.
Lemma g2_val : B2R g2 = 2.
Proof.
  unfold g2, B2R, F2R. cbn [cond_Zopp Fnum Fexp]. change (IZR (Z.pos (2 ^ 23))) with (IZR (2 ^ 23)).
  change (2 ^ 23)%Z with (radix_val radix2 ^ 23)%Z. rewrite (IZR_Zpower radix2 23) by discriminate. rewrite <- bpow_plus. reflexivity.
Qed.
Lemma mod32_1 h : (0 <= h)%Z -> moderate h g1.
Proof.
  intros H. split; [reflexivity|]. right. rewrite g1_val, Rabs_R1. replace 1 with (b2 0) by reflexivity. split; apply bpow_le; lia.
Qed.
Lemma mod32_2 h : (1 <= h)%Z -> moderate h g2.
Proof.
  intros H. split; [reflexivity|]. right. rewrite g2_val, Rabs_pos_eq by lra. replace 2 with (b2 1) by reflexivity. split; apply bpow_le; lia.
Qed.
Example C69_ex32 : forall S (c : cfg) (d : ety S (float F32)) (s : S), exists z, vnormalized c d (float_fops F32) 2 [g2; g1] s = (Ok z, s) /\
  Rabs (rat1 z 0 - 2 / sqrt 5) <= 16 * epsilon F32.
Proof.
  intros S c d s. pose proof (W_big c) as HW. destruct (C69_normalized F32 S 1 c d 2 [g2; g1] s) as (z & H1 & _ & H2);
    [discriminate|discriminate|discriminate|lia|reflexivity|repeat first [apply Forall_nil|apply Forall_cons|apply mod32_1|apply mod32_2|lia]| |].
  - exists 0%nat. split; [lia|]. unfold rat1. cbn [nth]. rewrite g2_val. lra.
  - exists z. split; [exact H1|]. destruct (H2 0%nat ltac:(lia)) as [_ E]. cbv zeta in E. unfold rsum in E. cbn [seq fold_left] in E.
    assert (E0 : rat1 [g2; g1] 0 = 2) by exact g2_val. assert (E1 : rat1 [g2; g1] 1 = 1) by exact g1_val.
    change (@rat1 (fprec F32) (femax F32)) with (@rat1 24 128) in *. rewrite E0, E1 in E. replace (0 + 2 * 2 + 1 * 1) with 5 in E by ring.
    apply Rle_trans with (1 := E). rewrite Rabs_pos_eq by lra. change (2 + 2)%nat with 4%nat. replace (INR 4) with 4 by (cbn; lra).
    assert (H5 : 2 / sqrt 5 <= 1).
    { assert (G5 : 2 <= sqrt 5). { replace 2 with (sqrt (2 * 2)) by (apply sqrt_square; lra). apply sqrt_le_1_alt. lra. }
      apply Rmult_le_reg_r with (sqrt 5); [lra|]. unfold Rdiv. rewrite Rmult_assoc, Rinv_l by lra. lra. }
    assert (0 < epsilon F32) by apply bpow_gt_0. assert (0 <= 2 / sqrt 5) by (left; apply Rdiv_lt_0_compat; [lra|apply sqrt_lt_R0; lra]).
    clear E. set (q := 2 / sqrt 5) in *. clearbody q. set (x := epsilon F32) in *. clearbody x. nra.
Qed.
