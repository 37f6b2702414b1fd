(** * RelMat.v - the functions on matrices, the iterators and formatting preserve relations between
    element types. *)
From Coq Require Import List Arith Bool Lia.
From Verif Require Import Rust Iter Elem VectorM MatIterM MatrixM ArithM OpsM CmpM FmtM SpecCommon Harness.
From Verif Require Import SpecRel RelProofs RelLib.
Import ListNotations.

Section Mat.
Context {S1 S2 : Type} (RS : S1 -> S2 -> Prop) (c : cfg).
Notation "'L'" := (alike RS).
Notation "'LC'" := (alike (pair_rel eq RS)).
Notation "'E'" := (ety_alike RS).
Notation "'IT'" := (iter_alike RS).
Notation F2 := Forall2.

(** ** Matrix iterators *)
Section Iters.
Context {A B : Type} (R : A -> B -> Prop) (d1 : ety S1 A) (d2 : ety S2 B) (cl1 : A -> M S1 A) (cl2 : B -> M S2 B).
Hypothesis Hd : E R d1 d2.
Hypothesis Hcl : op1_alike RS R R cl1 cl2.
Variables (row col : nat) (m1 : list (list A)) (m2 : list (list B)).
Hypothesis Hm : F2 (F2 R) m1 m2.
Ltac cur := eapply r_bind; [apply r_self|]; intros it ? <-.
Lemma r_ri_next : LC (opt_rel (F2 R)) (ri_next c col m1 d1 cl1) (ri_next c col m2 d2 cl2).
Proof.
  unfold ri_next. cur. destruct (_ <? _); [|now apply r_ret]. cbv zeta. eapply r_bind; [exact (r_slice _ _ _ _ _ Hm)|].
  intros x y Hx. eapply r_bind; [apply r_lift, (r_vclone RS c R); eauto|]. intros v w Hv. eapply r_bind; [apply r_add|]. intros f ? <-.
  eapply r_seq; [now apply r_set|]. now apply r_ret.
Qed.
Lemma r_ri_back : LC (opt_rel (F2 R)) (ri_next_back c col m1 d1 cl1) (ri_next_back c col m2 d2 cl2).
Proof.
  unfold ri_next_back. cur. destruct (_ <? _); [|now apply r_ret]. cbv zeta. eapply r_bind; [apply r_sub|]. intros i ? <-.
  eapply r_bind; [exact (r_slice _ _ _ _ _ Hm)|].
  intros x y Hx. eapply r_bind; [apply r_lift, (r_vclone RS c R); eauto|]. intros v w Hv. eapply r_bind; [apply r_sub|]. intros f ? <-.
  eapply r_seq; [now apply r_set|]. now apply r_ret.
Qed.
Lemma r_collect_col s : L (F2 R) (collect_col c row m1 d1 cl1 s) (collect_col c row m2 d2 cl2 s).
Proof.
  apply r_from_iter; [exact Hd|]. apply (r_imap RS (F2 R)); [|now apply r_viter].
  intros x y Hx. eapply r_bind; [exact (r_get _ _ _ _ _ Hx)|]. intros. now apply Hcl.
Qed.
Lemma r_ci_next : LC (opt_rel (F2 R)) (ci_next c row col m1 d1 cl1) (ci_next c row col m2 d2 cl2).
Proof.
  unfold ci_next. cur. eapply r_seq; [apply r_dbg|]. destruct (_ <? _); [|now apply r_ret]. cbv zeta.
  eapply r_bind; [apply r_add|]. intros f ? <-. eapply r_seq; [now apply r_set|].
  eapply r_bind; [apply r_lift, r_collect_col|]. intros. now apply r_ret.
Qed.
Lemma r_ci_back : LC (opt_rel (F2 R)) (ci_next_back c row m1 d1 cl1) (ci_next_back c row m2 d2 cl2).
Proof.
  unfold ci_next_back. cur. destruct (_ <? _); [|now apply r_ret]. cbv zeta.
  eapply r_bind; [apply r_sub|]. intros f ? <-. eapply r_seq; [now apply r_set|]. eapply r_bind; [apply r_sub|]. intros i ? <-.
  eapply r_bind; [apply r_lift, r_collect_col|]. intros. now apply r_ret.
Qed.
Lemma r_rr_next : LC (opt_rel (F2 R)) (rr_next c row m1) (rr_next c row m2).
Proof.
  unfold rr_next. cur. eapply r_seq; [apply r_dbg|]. destruct (_ <? _); [|now apply r_ret]. cbv zeta.
  eapply r_bind; [apply r_add|]. intros f ? <-. eapply r_seq; [now apply r_set|].
  eapply r_bind; [exact (r_vget _ _ _ _ _ _ _ Hm)|]. intros. now apply r_ret.
Qed.
Lemma r_rr_back : LC (opt_rel (F2 R)) (rr_next_back c row m1) (rr_next_back c row m2).
Proof.
  unfold rr_next_back. cur. eapply r_seq; [apply r_dbg|]. destruct (_ <? _); [|now apply r_ret].
  eapply r_bind; [apply r_sub|]. intros f ? <-. eapply r_seq; [now apply r_set|].
  eapply r_bind; [exact (r_vget _ _ _ _ _ _ _ Hm)|]. intros. now apply r_ret.
Qed.
Lemma r_cin_next : LC (opt_rel R) (cin_next c row col m1) (cin_next c row col m2).
Proof.
  unfold cin_next. eapply r_bind; [apply r_self|]. intros [j it] ? <-. destruct (_ <? _); [|now apply r_ret]. cbv zeta.
  eapply r_bind; [apply r_add|]. intros f ? <-. eapply r_seq; [now apply r_set|].
  eapply r_bind; [exact (r_vget _ _ _ _ _ _ _ Hm)|]. intros r q Hr. eapply r_bind; [exact (r_vget _ _ _ _ _ _ _ Hr)|]. intros. now apply r_ret.
Qed.
Lemma r_cin_back : LC (opt_rel R) (cin_next_back c row col m1) (cin_next_back c row col m2).
Proof.
  unfold cin_next_back. eapply r_bind; [apply r_self|]. intros [j it] ? <-. destruct (_ <? _); [|now apply r_ret].
  eapply r_bind; [apply r_sub|]. intros f ? <-. eapply r_seq; [now apply r_set|].
  eapply r_bind; [exact (r_vget _ _ _ _ _ _ _ Hm)|]. intros r q Hr. eapply r_bind; [exact (r_vget _ _ _ _ _ _ _ Hr)|]. intros. now apply r_ret.
Qed.
Lemma r_cin_new j : L eq (cin_new c row col j) (cin_new c row col j).
Proof. eapply r_seq; [apply r_dbg|]. now apply r_ret. Qed.
Lemma r_cr_next : LC (opt_rel eq) (cr_next c row col) (cr_next c row col).
Proof.
  unfold cr_next. cur. eapply r_seq; [apply r_dbg|]. destruct (_ <? _); [|now apply r_ret]. cbv zeta.
  eapply r_bind; [apply r_add|]. intros f ? <-. eapply r_seq; [now apply r_set|].
  eapply r_bind; [apply r_lift, r_cin_new|]. intros. now apply r_ret.
Qed.
Lemma r_cr_back : LC (opt_rel eq) (cr_next_back c row col) (cr_next_back c row col).
Proof.
  unfold cr_next_back. cur. eapply r_seq; [apply r_dbg|]. destruct (_ <? _); [|now apply r_ret].
  eapply r_bind; [apply r_sub|]. intros f ? <-. eapply r_seq; [now apply r_set|].
  eapply r_bind; [apply r_lift, r_cin_new|]. intros. now apply r_ret.
Qed.
Lemma r_rr_iter : IT (F2 R) (rows_iter_ref c row m1) (rows_iter_ref c row m2).
Proof. apply (r_mk RS (F2 R) eq); [reflexivity|apply r_rr_next|]. intros x y Hx. now apply r_ret. Qed.
Lemma r_cin_iter st : IT R (cin_iter c row col m1 st) (cin_iter c row col m2 st).
Proof. apply (r_mk RS R eq); [reflexivity|apply r_cin_next|]. intros x y Hx. now apply r_ret. Qed.
Lemma r_cr_iter : IT eq (cols_iter_ref c row col) (cols_iter_ref c row col).
Proof. apply (r_mk RS eq eq); [reflexivity|apply r_cr_next|]. intros x y Hx. now apply r_ret. Qed.
Lemma r_ci_iter : IT (F2 R) (cols_iter c row col d1 cl1 m1) (cols_iter c row col d2 cl2 m2).
Proof. apply (r_mk RS (F2 R) eq); [reflexivity|apply r_ci_next|]. intros x y Hx. now apply r_ret. Qed.
(** Histories *)
Lemma r_item {S S' T T'} (RW : S -> S' -> Prop) (Q : T -> T' -> Prop) (p : M S (option T)) q :
  alike RW (opt_rel Q) p q -> alike RW (out_rel Q) (item p) (item q).
Proof. intros H. eapply r_bind; [exact H|]. intros. now apply r_ret. Qed.
Lemma r_num {S S' T T'} (RW : S -> S' -> Prop) (Q : T -> T' -> Prop) (p : M S nat) q :
  alike RW eq p q -> alike RW (out_rel Q) (num p) (num q).
Proof. intros H. eapply r_bind; [exact H|]. intros. now apply r_ret. Qed.
Lemma r_hint {S S' T T'} (RW : S -> S' -> Prop) (Q : T -> T' -> Prop) (p : M S (nat * option nat)) q :
  alike RW eq p q -> alike RW (out_rel Q) (hint p) (hint q).
Proof. intros H. eapply r_bind; [exact H|]. intros x ? <-. now apply r_ret. Qed.
Lemma r_lenhint {S S' T T'} (RW : S -> S' -> Prop) (Q : T -> T' -> Prop) a b :
  alike RW (out_rel Q) (hint (s <- usz_sub c a b ;; ret (s, Some s))) (hint (s <- usz_sub c a b ;; ret (s, Some s))).
Proof. apply r_hint. eapply r_bind; [apply r_sub|]. intros x ? <-. now apply r_ret. Qed.
Lemma r_history {X Y T T'} (P : X -> Y -> Prop) (Q : T -> T' -> Prop) step1 step2 :
  (forall op, alike (pair_rel P RS) (out_rel Q) (step1 op) (step2 op)) ->
  forall ops, alike (pair_rel P RS) (F2 (out_rel Q)) (run_history step1 ops) (run_history step2 ops).
Proof.
  intros H. induction ops as [|op ops IH]; cbn [run_history]; [apply r_ret; constructor|].
  eapply r_bind; [apply H|]. intros x y Hx. eapply r_bind; [exact IH|]. intros. apply r_ret. now constructor.
Qed.
Ltac steps := try match goal with |- alike _ _ (bind self _) (bind self _) => eapply r_bind; [apply r_self|]; intros [? ?] ? <- end.
Lemma r_ri_step op : LC (out_rel (F2 R)) (ri_step c row col m1 d1 cl1 op) (ri_step c row col m2 d2 cl2 op).
Proof.
  destruct op; cbn [ri_step]; unfold ri_last, ri_nth.
  - apply r_item, r_ri_next.
  - apply r_item, r_ri_back.
  - apply r_item. cur. eapply r_bind; [apply r_add|]. intros f ? <-. eapply r_seq; [now apply r_set|]. apply r_ri_next.
  - apply r_item, r_ri_back.
  - cur. apply r_num, r_lift, r_sub.
  - cur. apply r_hint, r_lift. eapply r_bind; [apply r_sub|]. intros x ? <-. now apply r_ret.
Qed.
Lemma r_ci_step op : LC (out_rel (F2 R)) (ci_step c row col m1 d1 cl1 op) (ci_step c row col m2 d2 cl2 op).
Proof.
  destruct op; cbn [ci_step]; unfold ci_last, ci_nth.
  - apply r_item, r_ci_next.
  - apply r_item, r_ci_back.
  - apply r_item. cur. eapply r_bind; [apply r_add|]. intros f ? <-. eapply r_seq; [now apply r_set|]. apply r_ci_next.
  - apply r_item, r_ci_back.
  - cur. apply r_num, r_lift, r_sub.
  - cur. apply r_hint, r_lift. eapply r_bind; [apply r_sub|]. intros x ? <-. now apply r_ret.
Qed.
Lemma r_rr_step op : LC (out_rel (F2 R)) (rr_step c row m1 op) (rr_step c row m2 op).
Proof.
  destruct op; cbn [rr_step]; unfold rr_last, rr_nth.
  - apply r_item, r_rr_next.
  - apply r_item, r_rr_back.
  - apply r_item. cur. eapply r_bind; [apply r_add|]. intros f ? <-. eapply r_seq; [now apply r_set|]. apply r_rr_next.
  - apply r_item, r_rr_back.
  - cur. apply r_num, r_lift, r_sub.
  - cur. apply r_hint, r_lift. eapply r_bind; [apply r_sub|]. intros x ? <-. now apply r_ret.
Qed.
Lemma r_cin_step op : LC (out_rel R) (cin_step c row col m1 op) (cin_step c row col m2 op).
Proof.
  destruct op; cbn [cin_step]; unfold cin_last, cin_nth.
  - apply r_item, r_cin_next.
  - apply r_item, r_cin_back.
  - apply r_item. eapply r_bind; [apply r_self|]. intros [j it] ? <-. eapply r_bind; [apply r_add|]. intros f ? <-. eapply r_seq; [now apply r_set|]. apply r_cin_next.
  - apply r_item, r_cin_back.
  - cur. apply r_num, r_lift, r_sub.
  - cur. apply r_hint, r_lift. eapply r_bind; [apply r_sub|]. intros x ? <-. now apply r_ret.
Qed.
Lemma r_cr_step op : LC (out_rel eq) (cr_step c row col op) (cr_step c row col op).
Proof.
  destruct op; cbn [cr_step]; unfold cr_last, cr_nth.
  - apply r_item, r_cr_next.
  - apply r_item, r_cr_back.
  - apply r_item. cur. eapply r_bind; [apply r_add|]. intros f ? <-. eapply r_seq; [now apply r_set|]. apply r_cr_next.
  - apply r_item, r_cr_back.
  - cur. apply r_num, r_lift, r_sub.
  - cur. apply r_hint, r_lift. eapply r_bind; [apply r_sub|]. intros x ? <-. now apply r_ret.
Qed.
End Iters.

(** ** Vector's owning iterator and chunks *)
Section Own.
Context {A B : Type} (R : A -> B -> Prop) (d1 : ety S1 A) (d2 : ety S2 B).
Hypothesis Hd : E R d1 d2.
Notation "'LI'" := (alike (pair_rel (ii_rel R) RS)).
Lemma r_ii_len {S S'} (RW : S -> S' -> Prop) a b : ii_rel R a b -> alike RW eq (ii_len c a) (ii_len c b).
Proof. intros [_ Hn Hb]. unfold ii_len. rewrite Hn, Hb. apply r_sub. Qed.
Lemma r_ii_step n op : LI (out_rel R) (ii_step c d1 n op) (ii_step c d2 n op).
Proof.
  destruct op; cbn [ii_step].
  - now apply r_item, r_ii_next.
  - now apply r_item, r_ii_back.
  - now apply r_item, r_ii_nth.
  - now apply r_item, r_ii_back.
  - eapply r_bind; [apply r_self|]. intros. now apply r_num, r_lift, r_ii_len.
  - eapply r_bind; [apply r_self|]. intros. apply r_hint, r_lift. eapply r_bind; [now apply r_ii_len|]. intros k ? <-. now apply r_ret.
Qed.
Lemma r_ch_next n k : LI (opt_rel (F2 R)) (ch_next c d1 n k) (ch_next c d2 n k).
Proof.
  unfold ch_next. eapply r_bind; [apply r_self|]. intros a b Hab. eapply r_bind; [now apply r_ii_len|]. intros l ? <-.
  destruct (_ =? _); [now apply r_ret|]. eapply r_bind.
  - apply (r_from_iter _ R); [now apply r_lift_ety|]. apply r_take, r_by_ref. now apply r_ii_next.
  - intros. now apply r_ret.
Qed.
Lemma r_ch_back n k : LI (opt_rel (F2 R)) (ch_next_back c d1 n k) (ch_next_back c d2 n k).
Proof.
  unfold ch_next_back. eapply r_bind; [apply r_self|]. intros a b Hab. eapply r_bind; [now apply r_ii_len|]. intros l ? <-.
  destruct (_ =? _); [now apply r_ret|]. eapply r_bind.
  - apply (r_from_iter _ R); [now apply r_lift_ety|]. apply r_take, r_by_ref. now apply r_ii_back.
  - intros v w Hv. eapply r_bind; [apply r_lift, (r_from_iter _ R _ _ Hd)|].
    + apply r_rev_iter; [exact Hd|]. now apply r_into.
    + intros. now apply r_ret.
Qed.
Lemma r_provided_nth {X Y T T'} (P : X -> Y -> Prop) (Q : T -> T' -> Prop) nx1 nx2 dr1 dr2 :
  alike (pair_rel P RS) (opt_rel Q) nx1 nx2 -> (forall x y s1 s2, Q x y -> RS s1 s2 -> RS (dr1 x s1) (dr2 y s2)) ->
  forall k, alike (pair_rel P RS) (opt_rel Q) (provided_nth nx1 dr1 k) (provided_nth nx2 dr2 k).
Proof.
  intros H Hdr. induction k as [|k IH]; cbn [provided_nth]; (eapply r_bind; [exact H|]);
    intros [x|] [y|] Hx; cbn in Hx; try contradiction; try (now apply r_ret).
  eapply r_seq; [|exact IH]. apply r_tick. intros [a s] [b t] [Ha Hs]. split; cbn; [exact Ha|]. now apply Hdr.
Qed.
Lemma r_ch_hint k a b : ii_rel R a b -> L eq (ch_size_hint c k a) (ch_size_hint c k b).
Proof. intros H. eapply r_bind; [now apply r_ii_len|]. intros l ? <-. destruct (_ =? _); [apply r_panic|now apply r_ret]. Qed.
Lemma r_ch_step n k op : LI (out_rel (F2 R)) (ch_step c d1 n k op) (ch_step c d2 n k op).
Proof.
  destruct op; cbn [ch_step].
  - now apply r_item, r_ch_next.
  - now apply r_item, r_ch_back.
  - apply r_item, r_provided_nth; [apply r_ch_next|]. intros. now apply (r_vec_ety RS R d1 d2 Hd).
  - now apply r_item, r_ch_back.
  - eapply r_bind; [apply r_self|]. intros. apply r_num, r_lift. eapply r_bind; [now apply r_ch_hint|].
    intros [lo [h|]] ? <-; [|apply r_panic]. eapply r_seq; [apply r_assert|]. now apply r_ret.
  - eapply r_bind; [apply r_self|]. intros. now apply r_hint, r_lift, r_ch_hint.
Qed.
Lemma r_mfrom_vector row col v w : F2 R v w -> L (F2 (F2 R)) (mfrom_vector c d1 row col v) (mfrom_vector c d2 row col w).
Proof.
  intros Hv. apply r_from_iter; [now apply r_vec_ety|]. apply (r_mk RS (F2 R) (ii_rel R)); [now apply r_into|apply r_ch_next|].
  intros x y Hx. now apply (r_ii_drop RS R).
Qed.
Lemma r_mnew row v w : F2 (F2 R) v w -> L (F2 (F2 R)) (mnew c d1 row v) (mnew c d2 row w).
Proof.
  intros Hv. apply r_from_iter; [now apply r_vec_ety|]. apply (r_imap RS (F2 R)); [intros x y Hx; now apply r_ret|].
  apply r_into_it; [now apply r_vec_ety|exact Hv].
Qed.
Lemma r_mgenerate row col f g : (forall ij, L R (f ij) (g ij)) -> L (F2 (F2 R)) (mgenerate c d1 row col f) (mgenerate c d2 row col g).
Proof.
  intros H. apply r_from_iter; [now apply r_vec_ety|]. apply (r_imap RS eq); [|apply r_range].
  intros i ? <-. now apply r_vgenerate.
Qed.
Lemma r_mindex m1 m2 ij : F2 (F2 R) m1 m2 -> L R (mindex m1 ij) (mindex m2 ij).
Proof. intros H. destruct ij. eapply r_bind; [exact (r_vindex _ _ _ _ _ H)|]. intros r q Hr. exact (r_vindex _ _ _ _ _ Hr). Qed.
Lemma r_mindex_set m1 m2 ij x y : F2 (F2 R) m1 m2 -> R x y -> L (F2 (F2 R)) (mindex_set m1 ij x) (mindex_set m2 ij y).
Proof.
  intros H Hx. destruct ij. eapply r_bind; [exact (r_vindex _ _ _ _ _ H)|]. intros r q Hr.
  eapply r_bind; [now apply (r_assign _ R)|]. intros. now apply r_assign.
Qed.
Lemma r_mget row col m1 m2 ij : F2 (F2 R) m1 m2 -> L R (mget_unchecked c row col m1 ij) (mget_unchecked c row col m2 ij).
Proof.
  intros H. destruct ij. eapply r_seq; [apply r_dbg|]. eapply r_seq; [apply r_dbg|].
  eapply r_bind; [exact (r_vget _ _ _ _ _ _ _ H)|]. intros r q Hr. exact (r_vget _ _ _ _ _ _ _ Hr).
Qed.
Lemma r_mset row col m1 m2 ij x y : F2 (F2 R) m1 m2 -> R x y -> L (F2 (F2 R)) (mset_unchecked c row col m1 ij x) (mset_unchecked c row col m2 ij y).
Proof.
  intros H Hx. destruct ij. eapply r_seq; [apply r_dbg|]. eapply r_seq; [apply r_dbg|].
  eapply r_bind; [exact (r_vget _ _ _ _ _ _ _ H)|]. intros r q Hr. eapply r_bind; [now apply (r_vset _ c R)|]. intros. now apply r_vset.
Qed.
Lemma r_static row col m1 m2 ij : F2 (F2 R) m1 m2 -> L R (mindex_static c row col m1 ij) (mindex_static c row col m2 ij).
Proof.
  intros H. destruct ij as [[|i] [|j]]; (eapply r_bind; [exact (r_vget _ _ _ _ _ _ _ H)|]; intros r q Hr; exact (r_vget _ _ _ _ _ _ _ Hr)).
Qed.
Lemma r_static_set row col m1 m2 ij x y : F2 (F2 R) m1 m2 -> R x y ->
  L (F2 (F2 R)) (mindex_static_set c row col m1 ij x) (mindex_static_set c row col m2 ij y).
Proof.
  intros H Hx. destruct ij as [[|i] [|j]]; (eapply r_bind; [exact (r_vget _ _ _ _ _ _ _ H)|]; intros r q Hr;
    eapply r_bind; [now apply (r_vset _ c R)|]; intros; now apply r_vset).
Qed.
Lemma r_mall row col p1 p2 m1 m2 : (forall ij, op1_alike RS R eq (p1 ij) (p2 ij)) -> F2 (F2 R) m1 m2 ->
  L eq (mall row col p1 m1) (mall row col p2 m2).
Proof.
  intros Hp Hm. apply (r_iall RS (pair_rel eq (F2 R))); [|now apply r_enumerate, r_viter].
  intros [i r] [i' r'] [Hi Hr]. cbn in Hi, Hr. subst i'. apply (r_iall RS (pair_rel eq R)); [|now apply r_enumerate, r_viter].
  intros [j x] [j' x'] [Hj Hx]. cbn in Hj, Hx. subst j'. now apply Hp.
Qed.
Lemma r_many row col p1 p2 m1 m2 : (forall ij, op1_alike RS R eq (p1 ij) (p2 ij)) -> F2 (F2 R) m1 m2 ->
  L eq (many row col p1 m1) (many row col p2 m2).
Proof.
  intros Hp Hm. apply (r_iany RS (pair_rel eq (F2 R))); [|now apply r_enumerate, r_viter].
  intros [i r] [i' r'] [Hi Hr]. cbn in Hi, Hr. subst i'. apply (r_iany RS (pair_rel eq R)); [|now apply r_enumerate, r_viter].
  intros [j x] [j' x'] [Hj Hx]. cbn in Hj, Hx. subst j'. now apply Hp.
Qed.
Lemma r_mmap {C D} (Q : C -> D -> Prop) dc1 dc2 row col f1 f2 m1 m2 : E Q dc1 dc2 -> (forall ij, op1_alike RS R Q (f1 ij) (f2 ij)) ->
  F2 (F2 R) m1 m2 -> L (F2 (F2 Q)) (mmap c d1 dc1 row col f1 m1) (mmap c d2 dc2 row col f2 m2).
Proof.
  intros Hdc Hf Hm. apply r_from_iter; [now apply r_vec_ety|]. apply (r_imap RS (pair_rel eq (F2 R))).
  - intros [i r] [i' r'] [Hi Hr]. cbn in Hi, Hr. subst i'. apply r_from_iter; [exact Hdc|]. apply (r_imap RS (pair_rel eq R)).
    + intros [j x] [j' x'] [Hj Hx]. cbn in Hj, Hx. subst j'. now apply Hf.
    + now apply r_enumerate, r_into_it.
  - apply r_enumerate, r_into_it; [now apply r_vec_ety|exact Hm].
Qed.
Lemma r_mtransposed cl1 cl2 row col m1 m2 : op1_alike RS R R cl1 cl2 -> F2 (F2 R) m1 m2 ->
  L (F2 (F2 R)) (mtransposed c d1 cl1 row col m1) (mtransposed c d2 cl2 row col m2).
Proof. intros Hcl Hm. apply r_from_iter; [now apply r_vec_ety|]. now apply r_ci_iter. Qed.
Lemma r_mtranspose cl1 cl2 n : op1_alike RS R R cl1 cl2 ->
  alike (pair_rel (F2 (F2 R)) RS) eq (mtranspose c d1 cl1 n) (mtranspose c d2 cl2 n).
Proof.
  intros Hcl. eapply r_bind; [apply r_self|]. intros x y Hx. eapply r_bind; [apply r_lift, r_mtransposed; eauto|]. intros. now apply r_set.
Qed.
Lemma r_mclone cl1 cl2 row col : op1_alike RS R R cl1 cl2 -> op1_alike RS (F2 (F2 R)) (F2 (F2 R)) (mclone c d1 cl1 row col) (mclone c d2 cl2 row col).
Proof. intros Hcl. apply (r_vclone RS c (F2 R)); [now apply r_vec_ety|]. now apply r_vclone. Qed.
Lemma r_mdefault f g row col : L R f g -> L (F2 (F2 R)) (mdefault c d1 f row col) (mdefault c d2 g row col).
Proof. intros H. apply (r_vdefault RS c (F2 R)); [now apply r_vec_ety|]. now apply r_vdefault. Qed.
Lemma r_mapprox p1 p2 row col : op2_alike RS R R eq p1 p2 ->
  op2_alike RS (F2 (F2 R)) (F2 (F2 R)) eq (mapprox_eq c p1 row col) (mapprox_eq c p2 row col).
Proof.
  intros Hp a b u v Ha Hu. apply (r_for_each RS eq eq); [intros x ? e ? <- <-; now apply r_ret| |reflexivity].
  apply (r_imap RS (pair_rel (F2 R) (F2 R))).
  - intros [x1 x2] [y1 y2] [H1 H2]. cbn in H1, H2. apply (r_iall RS (pair_rel R R)).
    + intros [z1 z2] [w1 w2] [G1 G2]. now apply Hp.
    + apply r_zip; [apply r_ref_ety| |]; now apply r_slice_iter.
  - apply r_zip; [apply r_ref_ety| |]; now apply r_rr_iter.
Qed.
Lemma r_mclamp cl1 cl2 comp1 comp2 mn1 mn2 mx1 mx2 : op1_alike RS R R cl1 cl2 -> op2_alike RS R R eq comp1 comp2 -> R mn1 mn2 -> R mx1 mx2 ->
  alike (pair_rel (F2 R) RS) eq (vclamp_m d1 cl1 comp1 mn1 mx1) (vclamp_m d2 cl2 comp2 mn2 mx2) /\
  alike (pair_rel (F2 (F2 R)) RS) eq (mclamp_m d1 cl1 comp1 mn1 mx1) (mclamp_m d2 cl2 comp2 mn2 mx2).
Proof.
  intros Hcl Hco H1 H2. pose proof (r_clamp_slot RS R cl1 cl2 Hcl comp1 comp2 Hco d1 d2 mn1 mn2 mx1 mx2 Hd H1 H2) as K.
  split; apply (r_owning_mut RS _ R); auto; apply (r_owning_mut RS _ R); auto.
  - now apply r_iter_mut.
  - apply (r_iter_mut RS (F2 R)). now apply (r_iter_mut RS R).
Qed.
End Own.

(** ** Entrywise operators *)
Section Zip.
Context {A B C D G H : Type} (RA : A -> B -> Prop) (RB : C -> D -> Prop) (RC : G -> H -> Prop).
Context (da : ety S1 A) (da' : ety S2 B) (db : ety S1 C) (db' : ety S2 D) (dc : ety S1 G) (dc' : ety S2 H).
Context (f : A -> C -> M S1 G) (g : B -> D -> M S2 H).
Hypothesis Ha : E RA da da'.
Hypothesis Hb : E RB db db'.
Hypothesis Hc : E RC dc dc'.
Hypothesis Hf : op2_alike RS RA RB RC f g.
Variables (row col : nat).
Notation mm := (op2_alike RS (F2 (F2 RA)) (F2 (F2 RB)) (F2 (F2 RC))).
Lemma r_mzip_vv : mm (mzip_vv c da db dc row col f) (mzip_vv c da' db' dc' row col g).
Proof. apply (r_vzip_vv RS c (F2 RA) (F2 RB) (F2 RC)); try now apply r_vec_ety. now apply r_vzip_vv. Qed.
Lemma r_mzip_vr : mm (mzip_vr c da dc row col f) (mzip_vr c da' dc' row col g).
Proof. apply (r_vzip_vr RS c (F2 RA) (F2 RB) (F2 RC)); try now apply r_vec_ety. now apply r_vzip_vr. Qed.
Lemma r_mzip_rv : mm (mzip_rv c db dc row col f) (mzip_rv c db' dc' row col g).
Proof. apply (r_vzip_rv RS c (F2 RA) (F2 RB) (F2 RC)); try now apply r_vec_ety. now apply r_vzip_rv. Qed.
Lemma r_mzip_rr : mm (mzip_rr c dc row col f) (mzip_rr c dc' row col g).
Proof. apply (r_vzip_rr RS c (F2 RA) (F2 RB) (F2 RC)); try now apply r_vec_ety. now apply r_vzip_rr. Qed.
Lemma r_mneg n1 n2 : op1_alike RS RA RC n1 n2 -> op1_alike RS (F2 (F2 RA)) (F2 (F2 RC)) (mneg c da dc row col n1) (mneg c da' dc' row col n2).
Proof.
  intros Hn x y Hx. apply r_from_iter; [now apply r_vec_ety|]. apply (r_imap RS (F2 RA)); [now apply r_vneg|].
  apply r_into_it; [now apply r_vec_ety|exact Hx].
Qed.
Lemma r_mop_assign p q : (forall x y, RB x y -> alike (pair_rel RA RS) eq (p x) (q y)) -> forall u v, F2 (F2 RB) u v ->
  alike (pair_rel (F2 (F2 RA)) RS) eq (mop_assign c db row col p u) (mop_assign c db' row col q v).
Proof.
  intros Hp u v Hu. apply (r_iter_mut_zip RS (F2 RA) (F2 RB)).
  - intros x y Hx. apply (r_iter_mut_zip RS RA RB); [exact Hp|]. now apply r_into_it.
  - apply r_into_it; [now apply r_vec_ety|exact Hu].
Qed.
End Zip.

(** ** Arithmetic and determinants over one number type *)
Section Num.
Context {A B : Type} (R : A -> B -> Prop) (d1 : ety S1 A) (d2 : ety S2 B) (o1 : ops S1 A) (o2 : ops S2 B).
Hypothesis Hd : E R d1 d2.
Hypothesis HO : ring_alike RS R o1 o2.
Notation MR := (F2 (F2 R)).
Lemma r_midentity n : L MR (midentity c d1 o1 n) (midentity c d2 o2 n).
Proof. apply r_mgenerate; [exact Hd|]. intros [i j]. destruct (i =? j); apply r_ret; apply HO. Qed.
Lemma r_mis_zero row col m1 m2 : ops_alike RS R o1 o2 -> MR m1 m2 -> L eq (mis_zero o1 row col m1) (mis_zero o2 row col m2).
Proof. intros HA Hm. apply (r_iall RS (F2 R)); [|now apply r_viter]. intros x y Hx. now apply (r_vis_zero RS R o1 o2 col). Qed.
Lemma r_msum row col m1 m2 : MR m1 m2 -> L R (msum o1 row col m1) (msum o2 row col m2).
Proof. intros Hm. apply (r_sumfold RS R o1 o2 HO (F2 R)); [now apply r_vsum|now apply r_viter]. Qed.
Lemma r_mscale row col f g : op2_alike RS R R R f g -> op2_alike RS MR R MR (mscale c d1 row col f (o_clone o1)) (mscale c d2 row col g (o_clone o2)).
Proof.
  intros Hf x y u v Hx Hu. apply r_from_iter; [now apply r_vec_ety|].
  apply (r_imap RS (F2 R)); [|apply r_into_it; [now apply r_vec_ety|exact Hx]].
  intros a b Hab. eapply r_bind; [now apply (ra_clone RS R o1 o2 HO)|]. intros s t Hs. apply (r_vscale RS c R R R); auto; apply HO.
Qed.
Lemma r_mscale_ref row col f g : op2_alike RS R R R f g -> op2_alike RS MR R MR (mscale_ref c d1 row col f) (mscale_ref c d2 row col g).
Proof.
  intros Hf x y u v Hx Hu. apply r_from_iter; [now apply r_vec_ety|].
  apply (r_imap RS (F2 R)); [|apply r_into_it; [now apply r_vec_ety|exact Hx]].
  intros a b Hab. apply (r_vscale RS c R R R); auto. intros s t Hs. now apply r_ret.
Qed.
Lemma r_mscale_assign p q : (forall x y, R x y -> alike (pair_rel R RS) eq (p x) (q y)) -> forall u v, R u v ->
  alike (pair_rel MR RS) eq (mscale_assign p (o_clone o1) u) (mscale_assign q (o_clone o2) v).
Proof.
  intros Hp u v Hu. apply (r_iter_mut RS (F2 R)). apply (r_iter_mut RS R). eapply r_bind; [apply r_lift, (ra_clone RS R o1 o2 HO), Hu|]. exact Hp.
Qed.
Lemma r_entry_cloned n rc b1 b2 r1 r2 : MR b1 b2 -> F2 R r1 r2 -> op1_alike RS eq R (entry_cloned c d1 o1 n rc b1 r1) (entry_cloned c d2 o2 n rc b2 r2).
Proof.
  intros Hb Hr st ? <-. eapply (r_sumfold RS R o1 o2 HO); [apply r_opf, HO|].
  apply r_zip; [exact Hd| |]; (apply r_cloned; [apply HO|]); [now apply r_slice_iter|now apply r_cin_iter].
Qed.
Lemma r_entry_ref n rc b1 b2 r1 r2 : MR b1 b2 -> F2 R r1 r2 -> op1_alike RS eq R (entry_ref c d1 o1 n rc b1 r1) (entry_ref c d2 o2 n rc b2 r2).
Proof.
  intros Hb Hr st ? <-. eapply (r_sumfold RS R o1 o2 HO); [apply r_opf, HO|].
  apply r_zip; [exact Hd| |]; [apply r_cloned; [apply HO|now apply r_slice_iter]|now apply r_cin_iter].
Qed.
Lemma r_product lr n rc e1 e2 a1 a2 : MR a1 a2 -> (forall r1 r2, F2 R r1 r2 -> op1_alike RS eq R (e1 r1) (e2 r2)) ->
  L MR (from_iter c (vec_ety d1) lr (imap (fun lrow => from_iter c d1 rc (imap (e1 lrow) (cols_iter_ref c n rc))) (rows_iter_ref c lr a1)))
       (from_iter c (vec_ety d2) lr (imap (fun lrow => from_iter c d2 rc (imap (e2 lrow) (cols_iter_ref c n rc))) (rows_iter_ref c lr a2))).
Proof.
  intros Ha He. apply r_from_iter; [now apply r_vec_ety|]. apply (r_imap RS (F2 R)); [|now apply r_rr_iter].
  intros x y Hx. apply r_from_iter; [exact Hd|]. apply (r_imap RS eq); [now apply He|apply r_cr_iter].
Qed.
Lemma r_mmul_vv lr n rc : op2_alike RS MR MR MR (mmul_vv c d1 o1 lr n rc) (mmul_vv c d2 o2 lr n rc).
Proof. intros a1 a2 b1 b2 Ha Hb. apply r_product; [exact Ha|]. intros. now apply r_entry_cloned. Qed.
Lemma r_mmul_vr lr n rc : op2_alike RS MR MR MR (mmul_vr c d1 o1 lr n rc) (mmul_vr c d2 o2 lr n rc).
Proof. intros a1 a2 b1 b2 Ha Hb. apply r_product; [exact Ha|]. intros. now apply r_entry_ref. Qed.
Lemma r_mmul_rr lr n rc : op2_alike RS MR MR MR (mmul_rr c d1 o1 lr n rc) (mmul_rr c d2 o2 lr n rc).
Proof. intros a1 a2 b1 b2 Ha Hb. apply r_product; [exact Ha|]. intros. now apply r_entry_ref. Qed.
Lemma r_mmul_rv lr n rc : op2_alike RS MR MR MR (mmul_rv c d1 o1 lr n rc) (mmul_rv c d2 o2 lr n rc).
Proof. intros a1 a2 b1 b2 Ha Hb. apply r_product; [exact Ha|]. intros. now apply r_entry_cloned. Qed.
Lemma r_mmul_assign n b1 b2 : MR b1 b2 -> alike (pair_rel MR RS) eq (mmul_assign c d1 o1 n b1) (mmul_assign c d2 o2 n b2).
Proof.
  intros Hb. eapply r_bind; [apply r_self|]. intros x y Hx. eapply r_bind; [apply r_lift, r_product; [exact Hx|]|].
  - intros. now apply r_entry_cloned.
  - intros. now apply r_set.
Qed.
Lemma r_mmulv row col m1 m2 v1 v2 : MR m1 m2 -> F2 R v1 v2 -> L (F2 R) (mmulv c d1 o1 row col m1 v1) (mmulv c d2 o2 row col m2 v2).
Proof.
  intros Hm Hv. apply r_from_iter; [exact Hd|]. apply (r_imap RS (F2 R)); [|now apply r_rr_iter].
  intros x y Hx. apply (r_sumfold RS R o1 o2 HO (pair_rel R R)).
  - intros [a b] [a' b'] [H1 H2]. cbn in *. eapply r_bind; [now apply (ra_clone RS R o1 o2 HO)|]. intros. now apply HO.
  - apply r_zip; [apply r_ref_ety|now apply r_slice_iter|]. apply r_cloned; [apply HO|now apply r_viter].
Qed.
Lemma r_mmulv_ref row col m1 m2 v1 v2 : MR m1 m2 -> F2 R v1 v2 -> L (F2 R) (mmulv_ref c d1 o1 row col m1 v1) (mmulv_ref c d2 o2 row col m2 v2).
Proof.
  intros Hm Hv. apply r_from_iter; [exact Hd|]. apply (r_imap RS (F2 R)); [|apply r_into_it; [now apply r_vec_ety|exact Hm]].
  intros x y Hx. apply (r_sumfold RS R o1 o2 HO (pair_rel R R)); [apply r_opf, HO|].
  apply r_zip; [exact Hd|now apply r_into_it|now apply r_viter].
Qed.
Lemma r_num_pow {C D} (Q : C -> D -> Prop) f1 f2 cl1 cl2 one1 one2 : op2_alike RS Q Q Q f1 f2 -> op1_alike RS Q Q cl1 cl2 -> L Q one1 one2 ->
  forall x y e, Q x y -> L Q (num_pow f1 cl1 one1 x e) (num_pow f2 cl2 one2 y e).
Proof.
  intros Hf Hcl H1.
  assert (K1 : forall fuel x y e, Q x y -> L (pair_rel Q eq) (pow_loop1 f1 cl1 fuel x e) (pow_loop1 f2 cl2 fuel y e)).
  { induction fuel as [|fuel IH]; intros x y e Hx; cbn [pow_loop1]; [apply r_diverge|]. destruct (Nat.even e); [|now apply r_ret].
    eapply r_bind; [now apply Hcl|]. intros b b' Hb. eapply r_bind; [now apply Hf|]. intros. now apply IH. }
  assert (K2 : forall fuel x y u v e, Q x y -> Q u v -> L Q (pow_loop2 f1 cl1 fuel x u e) (pow_loop2 f2 cl2 fuel y v e)).
  { induction fuel as [|fuel IH]; intros x y u v e Hx Hu; cbn [pow_loop2]; (destruct (1 <? e); [|now apply r_ret]); [apply r_diverge|].
    cbv zeta. eapply r_bind; [now apply Hcl|]. intros b b' Hb. eapply r_bind; [now apply Hf|]. intros p p' Hp.
    eapply (r_bind RS Q); [|intros; now apply IH]. destruct (Nat.odd _); [|now apply r_ret].
    eapply r_bind; [now apply Hcl|]. intros. now apply Hf. }
  intros x y e Hx. unfold num_pow. destruct (e =? 0); [exact H1|]. eapply r_bind; [now apply K1|].
  intros [b k] [b' k'] [Hb Hk]. cbn in Hb, Hk. subst k'. destruct (k =? 1); [now apply r_ret|].
  eapply r_bind; [now apply Hcl|]. intros. now apply K2.
Qed.
Lemma r_mpow n m1 m2 e : MR m1 m2 -> L MR (mpow c d1 o1 n m1 e) (mpow c d2 o2 n m2 e).
Proof.
  intros Hm. eapply r_bind; [apply (r_mclone R d1 d2 Hd); [apply HO|exact Hm]|]. intros. apply r_num_pow; auto.
  - apply r_mmul_vv.
  - apply r_mclone; [exact Hd|apply HO].
  - apply r_midentity.
Qed.
(** Determinant *)
Lemma r_idx n m1 m2 i j : MR m1 m2 -> L R (idx c o1 n m1 i j) (idx c o2 n m2 i j).
Proof. intros Hm. eapply r_bind; [now apply (r_static R)|]. intros. now apply HO. Qed.
Lemma r_ix m1 m2 i j : MR m1 m2 -> L R (ix o1 m1 i j) (ix o2 m2 i j).
Proof. intros Hm. eapply r_bind; [now apply (r_mindex R)|]. intros. now apply HO. Qed.
Ltac nb := eapply r_bind; [first [eapply r_idx; eassumption|eapply r_ix; eassumption|eapply (ra_mul RS R o1 o2 HO); eassumption|eapply (ra_add RS R o1 o2 HO); eassumption
    |eapply (ra_sub RS R o1 o2 HO); eassumption|eapply (ra_neg RS R o1 o2 HO); eassumption|eapply (ra_clone RS R o1 o2 HO); eassumption]|intros ? ? ?].
Lemma r_det2 m1 m2 : MR m1 m2 -> L R (det2 c o1 m1) (det2 c o2 m2).
Proof. intros Hm. unfold det2. do 6 nb. now apply HO. Qed.
Lemma r_term3 m1 m2 i1 j1 i2 j2 i3 j3 : MR m1 m2 -> L R (term3 c o1 m1 i1 j1 i2 j2 i3 j3) (term3 c o2 m2 i1 j1 i2 j2 i3 j3).
Proof. intros Hm. unfold term3. do 4 nb. now apply HO. Qed.
Lemma r_det3 m1 m2 : MR m1 m2 -> L R (det3 c o1 m1) (det3 c o2 m2).
Proof.
  intros Hm. unfold det3. eapply r_bind; [now apply r_term3|intros ? ? ?].
  do 4 (eapply r_bind; [now apply r_term3|intros ? ? ?]; nb). eapply r_bind; [now apply r_term3|intros ? ? ?]. now apply HO.
Qed.
Lemma r_elim_row n i j x y m1 m2 : R x y -> MR m1 m2 -> L MR (elim_row o1 n i j x m1) (elim_row o2 n i j y m2).
Proof. intros Hx Hm. apply r_for_range; [|exact Hm]. intros k a b Hab. do 5 nb. now apply r_mindex_set. Qed.
Lemma r_expand n m1 m2 f g : MR m1 m2 -> (forall ij, L R (f ij) (g ij)) -> L R (expand_col0 o1 n m1 f) (expand_col0 o2 n m2 g).
Proof.
  intros Hm Hf. apply (r_sumfold RS R o1 o2 HO eq); [|apply r_range]. intros i ? <-. nb. eapply r_bind; [apply Hf|]. intros. now apply HO.
Qed.
Lemma r_cof_sign i j : L R (cof_sign c o1 i j) (cof_sign c o2 i j).
Proof. eapply r_bind; [apply r_add|]. intros s ? <-. destruct (_ =? _); [apply r_ret; apply HO|]. apply HO, HO. Qed.
Lemma r_cof2 m1 m2 ij : MR m1 m2 -> L R (cof2 c o1 m1 ij) (cof2 c o2 m2 ij).
Proof.
  intros Hm. destruct ij as [i j]. cbn [cof2]. eapply r_bind; [apply r_cof_sign|intros ? ? ?].
  eapply r_bind; [apply r_sub|intros a ? <-]. eapply r_bind; [apply r_sub|intros b ? <-]. nb. now apply HO.
Qed.
Lemma r_submatrix n m1 m2 i j : MR m1 m2 -> L MR (submatrix c d1 o1 n m1 i j) (submatrix c d2 o2 n m2 i j).
Proof.
  intros Hm. apply r_from_iter; [now apply r_vec_ety|]. apply (r_imap RS (pair_rel eq (F2 R))).
  - intros [k r] [k' r'] [_ Hr]. cbn in Hr. apply r_from_iter; [exact Hd|]. apply (r_imap RS (pair_rel eq R)).
    + intros [l a] [l' a'] [_ Ha]. now apply HO.
    + apply r_filter; [apply r_ref_ety| |now apply r_enumerate, r_slice_iter]. intros [l a] [l' a'] [E0 _]. cbn in E0. now subst l'.
  - apply r_filter; [apply r_ref_ety| |now apply r_enumerate, r_rr_iter]. intros [l a] [l' a'] [E0 _]. cbn in E0. now subst l'.
Qed.
Lemma r_cof_big n f g m1 m2 ij : op1_alike RS MR R f g -> MR m1 m2 -> L R (cof_big c d1 o1 n f m1 ij) (cof_big c d2 o2 n g m2 ij).
Proof.
  intros Hf Hm. destruct ij as [i j]. cbn [cof_big]. eapply r_seq; [apply r_assert|].
  eapply r_bind; [now apply r_submatrix|intros ? ? ?]. eapply r_bind; [apply r_cof_sign|intros ? ? ?]. eapply r_bind; [now apply Hf|intros ? ? ?]. now apply HO.
Qed.
Lemma r_cof3 m1 m2 ij : MR m1 m2 -> L R (cof3 c d1 o1 m1 ij) (cof3 c d2 o2 m2 ij).
Proof.
  intros Hm. destruct ij as [i j]. cbn [cof3]. eapply r_seq; [apply r_assert|].
  eapply r_bind; [apply r_cof_sign|intros ? ? ?]. eapply r_bind; [now apply r_submatrix|intros ? ? ?]. eapply r_bind; [now apply r_det2|intros ? ? ?]. now apply HO.
Qed.
Lemma r_ms m1 m2 a b e f g h i j : MR m1 m2 -> L R (ms c o1 m1 a b e f g h i j) (ms c o2 m2 a b e f g h i j).
Proof. intros Hm. unfold ms. do 6 nb. now apply HO. Qed.
(** [diag] *)
Lemma r_mdiag row col k e1 e2 : F2 R e1 e2 -> L MR (mdiag c d1 o1 row col k e1) (mdiag c d2 o2 row col k e2).
Proof.
  intros He s1 s2 HS. unfold mdiag.
  assert (K : alike (pair_rel (ii_rel R) RS) MR
    (mgenerate c (lift_ety d1) row col (fun '(i, j) => if i =? j then x <- ii_next_fn c d1 k ;; unwrap x else ret (o_zero o1)))
    (mgenerate c (lift_ety d2) row col (fun '(i, j) => if i =? j then x <- ii_next_fn c d2 k ;; unwrap x else ret (o_zero o2)))).
  { apply r_from_iter; [now apply r_vec_ety, r_lift_ety|]. apply (r_imap _ eq); [|apply r_range]. intros i ? <-.
    apply r_vgenerate; [now apply r_lift_ety|]. intros j. destruct (i =? j); [|apply r_ret; apply HO].
    eapply r_bind; [now apply (r_ii_next RS R)|]. intros. now apply r_unwrap. }
  destruct (K (into_iter k (vnew e1), s1) (into_iter k (vnew e2), s2)) as [H1 H2]; [split; [now apply r_into|exact HS]|].
  destruct (mgenerate c (lift_ety d1) row col _ (into_iter k (vnew e1), s1)) as [r1 [ii1 t1]].
  destruct (mgenerate c (lift_ety d2) row col _ (into_iter k (vnew e2), s2)) as [r2 [ii2 t2]].
  cbn in H1, H2. destruct H2 as [Hi Ht]. cbn in Hi, Ht.
  destruct r1, r2; cbn in H1; try contradiction; try (now split).
  - refine (r_seq RS MR _ _ _ _ eq (r_ii_drop RS R d1 d2 Hd ii1 ii2 Hi) _ t1 t2 Ht). now apply r_ret.
  - refine (r_seq RS MR _ _ _ _ eq (r_ii_drop RS R d1 d2 Hd ii1 ii2 Hi) _ t1 t2 Ht). apply r_panic.
Qed.
(** [conjugate] *)
Notation CR := (complex_rel R).
Lemma r_mconjugate dz1 dz2 row col m1 m2 : E CR dz1 dz2 -> F2 (F2 CR) m1 m2 ->
  L (F2 (F2 CR)) (mconjugate c dz1 o1 row col m1) (mconjugate c dz2 o2 row col m2).
Proof.
  intros Hz Hm. eapply r_bind.
  - apply (r_mclone CR dz1 dz2 Hz); [|exact Hm]. intros z w [H1 H2]. do 2 nb. now apply r_ret.
  - intros x y Hx. apply (r_mmap CR dz1 dz2 Hz CR); auto. intros _ z w [H1 H2]. do 3 nb. now apply r_ret.
Qed.
End Num.

(** Functions that also divide and test for zero *)
Section Field.
Context {A B : Type} (R : A -> B -> Prop) (d1 : ety S1 A) (d2 : ety S2 B) (o1 : ops S1 A) (o2 : ops S2 B).
Hypothesis Hd : E R d1 d2.
Hypothesis HA : ops_alike RS R o1 o2.
Hypothesis HO : ring_alike RS R o1 o2.
Notation MR := (F2 (F2 R)).
Ltac nb := eapply r_bind; [first [eapply (r_idx R o1 o2 HO); eassumption|eapply (r_ix R o1 o2 HO); eassumption|eapply (ra_mul RS R o1 o2 HO); eassumption|eapply (ra_add RS R o1 o2 HO); eassumption
    |eapply (ra_sub RS R o1 o2 HO); eassumption|eapply (ra_neg RS R o1 o2 HO); eassumption|eapply (ra_clone RS R o1 o2 HO); eassumption|eapply (oa_div RS R o1 o2 HA); eassumption]|intros ? ? ?].
Lemma r_det_big n m1 m2 f g : MR m1 m2 -> (forall ij, L R (f ij) (g ij)) -> L R (det_big c d1 o1 n m1 f) (det_big c d2 o2 n m2 g).
Proof.
  intros Hm Hf. eapply r_bind; [apply (r_mclone R d1 d2 Hd); [apply HO|exact Hm]|]. intros x y Hx. eapply r_bind.
  - apply (r_for_range_ret RS MR R); [|exact Hx]. intros i u v Hu. apply (r_for_range_ret RS MR R); [|exact Hu].
    intros j a b Hab. eapply r_bind; [now apply (r_mindex R)|]. intros p q Hp. rewrite (oa_is_zero RS R o1 o2 HA p q Hp).
    destruct (o_is_zero o2 q).
    + eapply r_bind; [apply (r_expand R); auto|]. intros. apply r_ret. now constructor.
    + do 3 nb. eapply r_bind; [apply (r_elim_row R); auto|]. intros. apply r_ret. now constructor.
  - intros r1 r2 [u v Hu|u v Hu]; [|now apply r_ret]. eapply r_for_each; [apply HO| |apply HO].
    apply (r_imap RS eq); [|apply r_range]. intros i ? <-. apply (r_ix R); auto.
Qed.
Lemma r_det n : op1_alike RS MR R (det c d1 o1 n) (det c d2 o2 n).
Proof.
  induction n as [|n IH]; intros m1 m2 Hm; [apply r_ub|].
  destruct n as [|[|[|n]]]; [apply (r_idx R); auto|apply (r_det2 R); auto|apply (r_det3 R); auto|].
  change (L R (det_big c d1 o1 (S (S (S (S n)))) m1 (cof_big c d1 o1 (S (S (S (S n)))) (det c d1 o1 (S (S (S n)))) m1))
              (det_big c d2 o2 (S (S (S (S n)))) m2 (cof_big c d2 o2 (S (S (S (S n)))) (det c d2 o2 (S (S (S n)))) m2))).
  apply r_det_big; [exact Hm|]. intros ij. apply (r_cof_big R); auto.
Qed.
Lemma r_cofactor n m1 m2 ij : MR m1 m2 -> L R (cofactor c d1 o1 n m1 ij) (cofactor c d2 o2 n m2 ij).
Proof.
  intros Hm. destruct n as [|[|[|[|n]]]]; [apply r_ub|apply r_ub|apply (r_cof2 R); auto|apply (r_cof3 R); auto|].
  apply (r_cof_big R); auto; apply r_det.
Qed.
Ltac lst := repeat (apply r_cons; [first [assumption|lst]|]); apply r_nil.
Lemma r_div : op2_alike RS R R R (o_div o1) (o_div o2). Proof. apply HA. Qed.
Lemma r_inv_big n m1 m2 : MR m1 m2 -> L (opt_rel MR) (inv_big c d1 o1 n m1) (inv_big c d2 o2 n m2).
Proof.
  intros Hm. eapply r_bind; [apply (r_mclone R d1 d2 Hd); [apply HO|exact Hm]|]. intros x y Hx.
  eapply r_bind; [apply (r_midentity R d1 d2 o1 o2 Hd HO)|]. intros u v Hu. eapply r_bind.
  - apply (r_for_range_ret RS (pair_rel MR MR) eq); [|now split]. intros i [p q] [p' q'] [Hp Hq]. cbn [fst snd] in *.
    eapply r_bind; [apply (r_ix R); auto|]. intros a b Hab. rewrite (oa_is_zero RS R o1 o2 HA a b Hab). destruct (o_is_zero o2 b).
    { apply r_ret. now constructor. }
    eapply r_bind; [apply r_div; [apply HO|exact Hab]|]. intros t t' Ht. eapply r_bind.
    + apply (r_for_range RS (pair_rel MR MR)); [|split; [exact Hp|exact Hq]]. intros j [e1 f1] [e2 f2] [He Hf]. cbn [fst snd] in *.
      do 3 nb. eapply r_bind; [now apply (r_mindex_set R)|intros ? ? ?]. do 3 nb. eapply r_bind; [now apply (r_mindex_set R)|intros ? ? ?].
      now apply r_ret.
    + intros mi mi' Hmi. eapply r_bind.
      * apply (r_for_range RS (pair_rel MR MR)); [|exact Hmi]. intros j [e1 f1] [e2 f2] [He Hf]. cbn [fst snd] in *.
        destruct (_ =? _); [now apply r_ret|]. nb. apply (r_for_range RS (pair_rel MR MR)); [|now split].
        intros k [g1 h1] [g2 h2] [Hg Hh]. cbn [fst snd] in *. do 5 nb. eapply r_bind; [now apply (r_mindex_set R)|intros ? ? ?].
        do 5 nb. eapply r_bind; [now apply (r_mindex_set R)|intros ? ? ?]. now apply r_ret.
      * intros. apply r_ret. now constructor.
  - intros r1 r2 [p q [_ Hp]|p q Hp]; now apply r_ret.
Qed.
Lemma r_inverse n m1 m2 : MR m1 m2 -> L (opt_rel MR) (inverse c d1 o1 n m1) (inverse c d2 o2 n m2).
Proof.
  intros Hm. destruct n as [|[|[|[|n]]]]; [apply r_ub| | | |now apply r_inv_big].
  - eapply r_bind; [apply (r_idx R); auto|]. intros a b Hab. rewrite (oa_is_zero RS R o1 o2 HA a b Hab). destruct (o_is_zero o2 b); [now apply r_ret|].
    eapply r_bind; [apply r_div; [apply HO|exact Hab]|]. intros t t' Ht. eapply r_bind; [apply (r_mnew R d1 d2 Hd); lst|]. intros. now apply r_ret.
  - eapply r_bind; [apply (r_det2 R); auto|]. intros a b Hab. rewrite (oa_is_zero RS R o1 o2 HA a b Hab). destruct (o_is_zero o2 b); [now apply r_ret|].
    do 6 nb. eapply r_bind; [apply (r_mnew R d1 d2 Hd); lst|]. intros. eapply r_bind; [apply (r_mscale R d1 d2 o1 o2 Hd HO); [apply r_div|eassumption|exact Hab]|].
    intros. now apply r_ret.
  - eapply r_bind; [apply (r_det3 R); auto|]. intros a b Hab. rewrite (oa_is_zero RS R o1 o2 HA a b Hab). destruct (o_is_zero o2 b); [now apply r_ret|].
    do 9 (eapply r_bind; [apply (r_ms R); auto|intros ? ? ?]).
    eapply r_bind; [apply (r_mnew R d1 d2 Hd); lst|]. intros. eapply r_bind; [apply (r_mscale R d1 d2 o1 o2 Hd HO); [apply r_div|eassumption|exact Hab]|].
    intros. now apply r_ret.
Qed.
End Field.
End Mat.
