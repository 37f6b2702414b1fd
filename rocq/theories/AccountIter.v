(** * AccountIter.v - the accounts of collecting and of the iterators that the crate collects from. *)
From Coq Require Import List Arith Bool Lia Permutation.
From Verif Require Import Rust Iter Elem VectorM MatIterM MatrixM SpecCommon IterProofs OwnProofs VecProofs MatProofs SpecAccount SpecAccountMut SpecSource AccountProofs AccountLib.
Import ListNotations.

Section Source.
Context {S T : Type} (live : S -> list T) (D leaky : Prop) (F : list T).
Local Notation frees := (frees live). Local Notation source := (source live D leaky F).
(** An iterator that performs known actions. *)
Definition acting {A U} (f : A -> M S U) (Bf : A -> list T) (it : iter S U) (O : list T) : Prop :=
  exists l dr, gives it (map f l) dr /\ O = concat (map Bf l) /\
    (forall k s R, k <= length l -> Permutation (live s) (concat (map Bf (lastn k l)) ++ R) -> Permutation (live (dr k s)) R).
Lemma source_acting {A U} (f : A -> M S U) (Bf : A -> list T) (E : U -> list T) :
  (forall x, tidies live D leaky F (f x) (Bf x) E) -> source E (acting f Bf).
Proof.
  intros Hf it O (l & dr & G & -> & HD). split.
  - intros s R P. exists (dr (length l) s). split; [rewrite (gives_drop _ _ _ G s), map_length; reflexivity|].
    apply HD; [lia|]. unfold lastn. now rewrite Nat.sub_diag.
  - intros s R HF P. destruct l as [|x l]; destruct G as [Gd G]; destruct (G s) as (it' & E1 & Dr).
    + rewrite E1. exists []. split; [|exact P]. intros s1 R1 P1. exists (dr 0 s1). split; [apply Dr|]. apply HD; [lia|exact P1].
    + destruct Dr as [Dr K]. rewrite E1. pose proof (Hf x s (concat (map Bf l) ++ R) (incl_appr _ HF)) as H.
      assert (P1 : Permutation (live s) (Bf x ++ concat (map Bf l) ++ R)) by (rewrite P; cbn [map concat]; psolve).
      specialize (H P1).
      assert (HD' : forall k s R, k <= length l -> Permutation (live s) (concat (map Bf (lastn k l)) ++ R) -> Permutation (live (dr k s)) R).
      { intros k s0 R0 Hk P0. apply (HD k); [cbn; lia|]. replace (lastn k (x :: l)) with (lastn k l); [exact P0|].
        unfold lastn. cbn [length]. replace (Datatypes.S (length l) - k) with (Datatypes.S (length l - k)) by lia. reflexivity. }
      destruct (f x s) as [[y| | |] s1]; cbn [omap] in *; try exact H.
      * exists (concat (map Bf l)). split; [exists l, dr; split; [now apply K|now split]|exact H].
      * destruct H as (L & PL & HL). exists (concat (map Bf l)), L. split; [|split; [rewrite PL; psolve|exact HL]].
        intros s2 R2 P2. exists (dr (length l) s2). split; [rewrite Dr, map_length; reflexivity|].
        apply HD'; [lia|]. unfold lastn. now rewrite Nat.sub_diag.
Qed.
(** [map]. *)
Definition mapped {A B} (f : A -> M S B) (I : iter S A -> list T -> Prop) (it : iter S B) (O : list T) : Prop :=
  exists it0, it = imap f it0 /\ I it0 O.
Lemma source_map {A B} (f : A -> M S B) (EA : A -> list T) (EB : B -> list T) I :
  source EA I -> (forall x, tidies live D leaky F (f x) (EA x) EB) -> source EB (mapped f I).
Proof.
  intros HI Hf it O (it0 & -> & H0). destruct (HI it0 O H0) as [Hd Hn]. split.
  - intros s R P. exact (Hd s R P).
  - intros s R HF P. specialize (Hn s R HF P). unfold next in *. cbn [i_next i_cur imap i_st i_drop].
    unfold bind, lift, ret. destruct (i_next it0 (i_cur it0, s)) as [[[x|]| | |] [st' s1]]; cbn [fst snd]; try exact Hn.
    destruct Hn as (O' & HO & P1).
    specialize (Hf x s1 (O' ++ R) (incl_appr _ HF) P1). destruct (f x s1) as [[y| | |] s2]; cbn [fst snd]; try exact Hf.
    + exists O'. split; [|exact Hf]. eexists. split; [|exact HO]. reflexivity.
    + destruct Hf as (L & PL & HL). destruct (HI _ _ HO) as [Hd' _].
      exists O', L. split; [exact Hd'|]. split; [rewrite PL; psolve|exact HL].
Qed.
(** Collecting. *)
Section Collect.
Context {U : Type} (d : ety S U) (E : U -> list T).
Hypothesis Hd : forall u s R, Permutation (live s) (E u ++ R) -> Permutation (live (e_drop d u s)) R.
Lemma dal us : forall s R, Permutation (live s) (concat (map E us) ++ R) -> Permutation (live (drop_all d us s)) R.
Proof.
  induction us as [|u us IH]; intros s R P; [exact P|]. unfold drop_all in *. cbn [fold_left map concat] in *. apply IH, Hd. rewrite P. psolve.
Qed.
Lemma oos_frees {A} (it : iter S U) O (r : res A) s R : frees it O -> Permutation (live s) (O ++ R) ->
  exists s', out_of_scope it r s = (r, s') /\ Permutation (live s') R.
Proof. intros HF P. destruct (HF s R P) as (s' & E1 & P'). exists s'. split; [|exact P']. unfold out_of_scope, bind. now rewrite E1. Qed.
Lemma count_source I : source E I -> forall fuel it O acc s R, I it O -> (D \/ False) -> incl F R -> Permutation (live s) (O ++ R) ->
  match icount d fuel it acc s with
  | (Ok k, s') => Permutation (live s') R
  | (Panic, s') => exists left, Permutation (live s') (left ++ R) /\ (left = [] \/ leaky)
  | (UB, _) => False
  | (Diverge, _) => D
  end.
Proof.
  intros HI. induction fuel as [|fuel IH]; intros it O acc s R H0 HDv HF P; destruct (HI it O H0) as [_ Hn]; specialize (Hn s R HF P); cbn [icount];
    destruct (next (it, s)) as [[[x|]| | |] [it' s1]]; try exact Hn; try tauto.
  1, 4: destruct Hn as (O' & HFr & P1); destruct (oos_frees it' O' (Ok acc) s1 R HFr P1) as (s2 & -> & P2); exact P2.
  1, 3: destruct Hn as (O' & L & HFr & P1 & HL); destruct (oos_frees it' O' (@Panic nat) s1 (L ++ R) HFr P1) as (s2 & -> & P2); exists L; now split.
  destruct Hn as (O' & HO & P1). apply (IH it' O' (acc + 1) _ R HO HDv HF). apply Hd. exact P1.
Qed.
Lemma collect_source c I : source E I -> (debug c = true -> D) -> forall k it O xs s R, I it O -> incl F R ->
  Permutation (live s) (concat (map E xs) ++ O ++ R) ->
  match from_iter_loop c d k (length xs) (map Live xs ++ repeat Uninit k) it s with
  | (Ok r, s') => length r = length xs + k /\ Permutation (live s') (concat (map E r) ++ R)
  | (Panic, s') => exists ys left, length ys <= length xs + k /\ Permutation (live s') (concat (map E ys) ++ left ++ R) /\ (left = [] \/ leaky) /\
      (ys = [] \/ (exists it own s, I it own /\ fst (next (it, s)) = Panic) \/ (debug c = true /\ length ys = length xs + k))
  | (UB, _) => False
  | (Diverge, _) => D
  end.
Proof.
  intros HI HDv. induction k as [|k IH]; intros it O xs s R H0 HF P; destruct (HI it O H0) as [Hfr Hn].
  - cbn [from_iter_loop repeat]. rewrite app_nil_r. unfold from_iter_finish. 
    assert (P1 : Permutation (live s) (O ++ concat (map E xs) ++ R)) by (rewrite P; psolve).
    destruct (debug c) eqn:Ec.
    + pose proof (count_source I HI (fuel_count c) it O 0 s (concat (map E xs) ++ R) H0 (or_introl (HDv eq_refl)) (incl_appr _ HF) P1) as H.
      unfold bind. destruct (icount d (fuel_count c) it 0 s) as [[n| | |] s1]; try exact H.
      * destruct (n =? 0); cbn [assert]; unfold ret, panic.
        -- rewrite assume_init_live. split; [lia|exact H].
        -- exists xs, []. split; [lia|]. split; [exact H|]. split; [now left|right; right; split; [reflexivity|lia]].
      * destruct H as (L & PL & HL). exists xs, L. split; [lia|]. split; [rewrite PL; psolve|]. split; [exact HL|right; right; split; [reflexivity|lia]].
    + unfold bind. rewrite assume_init_live. destruct (oos_frees it O (Ok xs) s _ Hfr P1) as (s1 & -> & P2). split; [lia|exact P2].
  - assert (P1 : Permutation (live s) (O ++ concat (map E xs) ++ R)) by (rewrite P; psolve).
    specialize (Hn s (concat (map E xs) ++ R) (incl_appr _ HF) P1). cbn [from_iter_loop repeat].
    destruct (next (it, s)) as [[[x|]| | |] [it' s1]] eqn:En; try exact Hn.
    + destruct Hn as (O' & HO & P2). unfold bind, ptr_write. rewrite app_length, map_length. cbn [length].
      destruct (Nat.ltb_spec (length xs) (length xs + Datatypes.S (length (repeat (@Uninit U) k)))); [|lia].
      unfold ret.
      assert (EQ : list_set (map Live xs ++ Uninit :: repeat Uninit k) (length xs) (Live x) = map Live xs ++ Live x :: repeat Uninit k).
      { rewrite <- (map_length Live xs) at 1. apply list_set_app. }
      rewrite EQ.
      assert (P3 : Permutation (live s1) (concat (map E (xs ++ [x])) ++ O' ++ R)).
      { rewrite P2, map_app, concat_app. cbn [map concat]. psolve. }
      specialize (IH it' O' (xs ++ [x]) s1 R HO HF P3). rewrite app_length, map_app, <- app_assoc in IH. cbn [length map app] in IH.
      destruct (from_iter_loop c d k (length xs + 1) _ it' s1) as [[r| | |] s2]; try exact IH.
      * destruct IH as [L PL]. split; [lia|exact PL].
      * destruct IH as (ys & L & HL & PL & HL2 & HY). exists ys, L. split; [lia|]. split; [exact PL|]. split; [exact HL2|].
        destruct HY as [HY|[HY|[HY HY2]]]; [now left|now right; left|right; right; split; [exact HY|lia]].
    + destruct Hn as (O' & HFr & P2). unfold bind at 1.
      pose proof (drop_cells_live d [] xs (Uninit :: repeat Uninit k) s1) as DC. cbn [length Nat.add app] in DC. rewrite DC.
      assert (P3 : Permutation (live (drop_all d xs s1)) (O' ++ R)) by (apply dal; rewrite P2; psolve).
      destruct (oos_frees it' O' (@Panic (list U)) _ R HFr P3) as (s2 & -> & P4). exists [], []. split; [cbn; lia|]. split; [exact P4|]. split; now left.
    + destruct Hn as (O' & L & HFr & P2 & HL).
      assert (P3 : Permutation (live s1) (O' ++ concat (map E xs) ++ L ++ R)) by (rewrite P2; psolve).
      destruct (oos_frees it' O' (@Panic (list U)) s1 _ HFr P3) as (s2 & -> & P4). exists xs, L. split; [lia|]. split; [exact P4|]. split; [exact HL|].
      right. left. exists it, O, s. split; [exact H0|now rewrite En].
Qed.
End Collect.
End Source.
