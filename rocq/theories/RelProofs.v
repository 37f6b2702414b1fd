(** * RelProofs.v - programs of the model preserve relations between element types. *)
From Coq Require Import List Arith Bool Lia.
From Verif Require Import Rust Iter Elem VectorM MatIterM MatrixM ArithM OpsM CmpM FmtM SpecCommon.
From Verif Require Import SpecRel.
Import ListNotations.

(** ** Data *)
Lemma f2_nth {A B} (R : A -> B -> Prop) l1 l2 i : Forall2 R l1 l2 -> opt_rel R (nth_error l1 i) (nth_error l2 i).
Proof. intros H. revert i. induction H as [|x y l1 l2 Hx H IH]; intros [|i]; cbn; auto. Qed.
Lemma f2_len {A B} (R : A -> B -> Prop) l1 l2 : Forall2 R l1 l2 -> length l1 = length l2.
Proof. induction 1; cbn; congruence. Qed.
Lemma f2_set {A B} (R : A -> B -> Prop) l1 l2 i x y : Forall2 R l1 l2 -> R x y -> Forall2 R (list_set l1 i x) (list_set l2 i y).
Proof. intros H Hx. revert i. induction H as [|u v l1 l2 Hu H IH]; intros [|i]; cbn; constructor; auto. Qed.
Inductive cell_rel {A B} (R : A -> B -> Prop) : cell A -> cell B -> Prop :=
| CLive x y : R x y -> cell_rel R (Live x) (Live y)
| CMoved x y : R x y -> cell_rel R (Moved x) (Moved y)
| CUninit : cell_rel R Uninit Uninit.
Inductive sum_rel {A B C D} (R : A -> B -> Prop) (Q : C -> D -> Prop) : A + C -> B + D -> Prop :=
| SInl x y : R x y -> sum_rel R Q (inl x) (inl y)
| SInr x y : Q x y -> sum_rel R Q (inr x) (inr y).
Record ii_rel {A B} (R : A -> B -> Prop) (a : into_iter_t A) (b : into_iter_t B) : Prop := IiRel {
  iir_arr : Forall2 (cell_rel R) (ii_arr a) (ii_arr b);
  iir_next : ii_next a = ii_next b;
  iir_back : ii_back a = ii_back b }.

Local Hint Constructors Forall2 : core.
Ltac fin := repeat match goal with |- _ /\ _ => split | |- pair_rel _ _ _ _ => split end; cbn in *; auto; try (now constructor; auto).
Ltac split2 := match goal with |- _ /\ _ => split end.

Section Prog.
Context {S1 S2 : Type} (RS : S1 -> S2 -> Prop).
Notation "'L'" := (alike RS).

Lemma r_ret {A B} (R : A -> B -> Prop) x y : R x y -> L R (ret x) (ret y).
Proof. intros H s1 s2 HS. now split. Qed.
Lemma r_panic {A B} (R : A -> B -> Prop) : L R panic panic.
Proof. intros s1 s2 HS. now split. Qed.
Lemma r_ub {A B} (R : A -> B -> Prop) : L R ub ub.
Proof. intros s1 s2 HS. now split. Qed.
Lemma r_diverge {A B} (R : A -> B -> Prop) : L R diverge diverge.
Proof. intros s1 s2 HS. now split. Qed.
Lemma r_bind {A B C D} (R : A -> B -> Prop) (Q : C -> D -> Prop) m1 m2 k1 k2 :
  L R m1 m2 -> (forall x y, R x y -> L Q (k1 x) (k2 y)) -> L Q (bind m1 k1) (bind m2 k2).
Proof.
  intros H K s1 s2 HS. unfold bind. destruct (H s1 s2 HS) as [H1 H2].
  destruct (m1 s1) as [[x| | |] t1], (m2 s2) as [[y| | |] t2]; cbn in *; try contradiction; try (now split).
  now apply K.
Qed.
Lemma r_seq {A B C D} (Q : C -> D -> Prop) (m1 : M S1 A) (m2 : M S2 B) k1 k2 (R : A -> B -> Prop) :
  L R m1 m2 -> L Q k1 k2 -> L Q (m1 ;;; k1) (m2 ;;; k2).
Proof. intros H K. eapply r_bind; [exact H|]. now intros. Qed.
Lemma r_weak {A B} (R Q : A -> B -> Prop) m1 m2 : L R m1 m2 -> (forall x y, R x y -> Q x y) -> L Q m1 m2.
Proof.
  intros H K s1 s2 HS. destruct (H s1 s2 HS) as [H1 H2]. split; [|exact H2].
  destruct (fst (m1 s1)), (fst (m2 s2)); cbn in *; auto.
Qed.
Lemma r_assert b : L eq (assert b) (assert b).
Proof. destruct b; [now apply r_ret|apply r_panic]. Qed.
Lemma r_dbg c b : L eq (debug_assert c b) (debug_assert c b).
Proof. unfold debug_assert. destruct (_ && _); [apply r_panic|now apply r_ret]. Qed.
Lemma r_add c a b : L eq (usz_add c a b) (usz_add c a b).
Proof. unfold usz_add. destruct (_ <? _); [now apply r_ret|]. destruct (debug c); [apply r_panic|now apply r_ret]. Qed.
Lemma r_sub c a b : L eq (usz_sub c a b) (usz_sub c a b).
Proof. unfold usz_sub. destruct (_ <=? _); [now apply r_ret|]. destruct (debug c); [apply r_panic|now apply r_ret]. Qed.
Lemma r_tick f g : (forall s1 s2, RS s1 s2 -> RS (f s1) (g s2)) -> L eq (tick f) (tick g).
Proof. intros H s1 s2 HS. split; cbn; auto. Qed.
Lemma r_slice {A B} (R : A -> B -> Prop) l1 l2 i : Forall2 R l1 l2 -> L R (slice_index l1 i) (slice_index l2 i).
Proof.
  intros H. unfold slice_index. pose proof (f2_nth R l1 l2 i H) as E.
  destruct (nth_error l1 i), (nth_error l2 i); cbn in E; try contradiction; [now apply r_ret|apply r_panic].
Qed.
Lemma r_get {A B} (R : A -> B -> Prop) l1 l2 i : Forall2 R l1 l2 -> L R (slice_get_unchecked l1 i) (slice_get_unchecked l2 i).
Proof.
  intros H. unfold slice_get_unchecked. pose proof (f2_nth R l1 l2 i H) as E.
  destruct (nth_error l1 i), (nth_error l2 i); cbn in E; try contradiction; [now apply r_ret|apply r_ub].
Qed.
Lemma r_assign {A B} (R : A -> B -> Prop) l1 l2 i x y : Forall2 R l1 l2 -> R x y ->
  L (Forall2 R) (slice_assign l1 i x) (slice_assign l2 i y).
Proof.
  intros H Hx. unfold slice_assign. rewrite (f2_len R l1 l2 H). destruct (_ <? _); [|apply r_panic].
  apply r_ret. now apply f2_set.
Qed.
Lemma r_assign_unchecked {A B} (R : A -> B -> Prop) l1 l2 i x y : Forall2 R l1 l2 -> R x y ->
  L (Forall2 R) (slice_assign_unchecked l1 i x) (slice_assign_unchecked l2 i y).
Proof.
  intros H Hx. unfold slice_assign_unchecked. rewrite (f2_len R l1 l2 H). destruct (_ <? _); [|apply r_ub].
  apply r_ret. now apply f2_set.
Qed.
Lemma r_unwrap {A B} (R : A -> B -> Prop) o1 o2 : opt_rel R o1 o2 -> L R (unwrap o1) (unwrap o2).
Proof. destruct o1, o2; cbn; try contradiction; intros; [now apply r_ret|apply r_panic]. Qed.
Lemma r_for_n {A B} (R : A -> B -> Prop) b1 b2 : (forall i x y, R x y -> L R (b1 i x) (b2 i y)) ->
  forall k i x y, R x y -> L R (for_n k i b1 x) (for_n k i b2 y).
Proof.
  intros H. induction k as [|k IH]; intros i x y Hx; cbn; [now apply r_ret|].
  eapply r_bind; [apply H, Hx|]. intros x' y' Hx'. now apply IH.
Qed.
Lemma r_for_range {A B} (R : A -> B -> Prop) b1 b2 lo hi x y : (forall i x y, R x y -> L R (b1 i x) (b2 i y)) ->
  R x y -> L R (for_range lo hi b1 x) (for_range lo hi b2 y).
Proof. intros H. now apply r_for_n. Qed.
Lemma r_for_range_ret {A B C D} (R : A -> B -> Prop) (Q : C -> D -> Prop) b1 b2 lo hi x y :
  (forall i x y, R x y -> L (sum_rel R Q) (b1 i x) (b2 i y)) ->
  R x y -> L (sum_rel R Q) (for_range_ret lo hi b1 x) (for_range_ret lo hi b2 y).
Proof.
  intros H. unfold for_range_ret. generalize (hi - lo). intros k. revert lo x y.
  induction k as [|k IH]; intros i x y Hx; cbn; [apply r_ret; now constructor|].
  eapply r_bind; [apply H, Hx|]. intros r1 r2 [x' y' Hx'|u v Hu]; [now apply IH|apply r_ret; now constructor].
Qed.

(** Destructors *)
Lemma r_vec_ety {A B} (R : A -> B -> Prop) d1 d2 : ety_alike RS R d1 d2 -> ety_alike RS (Forall2 R) (vec_ety d1) (vec_ety d2).
Proof.
  intros [Hc H]. split; [exact Hc|]. intros l1 l2 s1 s2 HL. revert s1 s2. cbn. unfold drop_all.
  induction HL as [|x y l1 l2 Hx HL IH]; intros s1 s2 HS; cbn; auto.
Qed.
Lemma r_ref_ety {A B} (R : A -> B -> Prop) : ety_alike RS R ref_ety ref_ety.
Proof. split; [reflexivity|]. cbn. auto. Qed.
Lemma r_pod_ety {A B} (R : A -> B -> Prop) : ety_alike RS R pod_ety pod_ety.
Proof. split; [reflexivity|]. cbn. auto. Qed.

(** Cells *)
Section Cells.
Context {A B : Type} (R : A -> B -> Prop) (d1 : ety S1 A) (d2 : ety S2 B).
Hypothesis Hd : ety_alike RS R d1 d2.
Let RC := Forall2 (cell_rel R).
Lemma r_read a1 a2 i : RC a1 a2 -> L (pair_rel R RC) (ptr_read d1 a1 i) (ptr_read d2 a2 i).
Proof.
  intros H. unfold ptr_read. pose proof (f2_nth _ a1 a2 i H) as E.
  destruct (nth_error a1 i) as [c1|], (nth_error a2 i) as [c2|]; cbn in E; try contradiction; [|apply r_ub].
  destruct E as [x y Hx|x y Hx|].
  - apply r_ret. split; cbn; [exact Hx|]. apply f2_set; [exact H|]. now constructor.
  - rewrite (proj1 Hd). destruct (e_copy d2); [|apply r_ub]. apply r_ret. now split.
  - apply r_ub.
Qed.
Lemma r_drop_in a1 a2 i : RC a1 a2 -> L RC (drop_in_place d1 a1 i) (drop_in_place d2 a2 i).
Proof.
  intros H. unfold drop_in_place. pose proof (f2_nth _ a1 a2 i H) as E.
  destruct (nth_error a1 i) as [c1|], (nth_error a2 i) as [c2|]; cbn in E; try contradiction; [|apply r_ub].
  destruct E as [x y Hx|x y Hx|].
  - eapply r_seq; [apply r_tick; intros; now apply Hd|]. apply r_ret. apply f2_set; [exact H|]. now constructor.
  - rewrite (proj1 Hd). destruct (e_copy d2); [|apply r_ub]. now apply r_ret.
  - apply r_ub.
Qed.
Lemma r_write a1 a2 i x y : RC a1 a2 -> R x y -> L RC (ptr_write a1 i x) (ptr_write a2 i y).
Proof.
  intros H Hx. unfold ptr_write. rewrite (f2_len _ a1 a2 H). destruct (_ <? _); [|apply r_ub].
  apply r_ret. apply f2_set; [exact H|]. now constructor.
Qed.
Lemma r_drop_cells a1 a2 lo hi : RC a1 a2 -> L RC (drop_cells d1 lo hi a1) (drop_cells d2 lo hi a2).
Proof. intros H. apply r_for_range; [|exact H]. intros. now apply r_drop_in. Qed.
Lemma r_assume a1 a2 : RC a1 a2 -> L (Forall2 R) (assume_init a1) (assume_init a2).
Proof.
  induction 1 as [|c1 c2 a1 a2 Hc H IH]; cbn; [apply r_ret; constructor|].
  destruct Hc; try apply r_ub. eapply r_bind; [exact IH|]. intros. apply r_ret. now constructor.
Qed.
End Cells.

(** ** Iterators *)
Notation "'IT'" := (iter_alike RS).
Lemma r_next {A B} (R : A -> B -> Prop) it1 it2 : IT R it1 it2 ->
  forall s1 s2, RS s1 s2 ->
  match next (it1, s1), next (it2, s2) with
  | (Ok (Some x), (it1', s1')), (Ok (Some y), (it2', s2')) => R x y /\ IT R it1' it2' /\ RS s1' s2'
  | (Ok None, (it1', s1')), (Ok None, (it2', s2'))
  | (Panic, (it1', s1')), (Panic, (it2', s2'))
  | (UB, (it1', s1')), (UB, (it2', s2'))
  | (Diverge, (it1', s1')), (Diverge, (it2', s2')) => IT R it1' it2' /\ RS s1' s2'
  | _, _ => False
  end.
Proof.
  intros (Q & H0 & HN & HD) s1 s2 HS. unfold next.
  destruct (HN (i_cur it1, s1) (i_cur it2, s2) (Logic.conj H0 HS)) as [H1 H2].
  destruct (i_next it1 (i_cur it1, s1)) as [r1 [st1 t1]], (i_next it2 (i_cur it2, s2)) as [r2 [st2 t2]].
  cbn in H1, H2. destruct H2 as [H2 H3]. cbn in H2, H3.
  destruct r1 as [[x|]| | |], r2 as [[y|]| | |]; cbn in H1; try contradiction; repeat split; auto; now exists Q.
Qed.
Lemma r_drop_iter {A B} (R : A -> B -> Prop) it1 it2 : IT R it1 it2 -> L eq (drop_iter it1) (drop_iter it2).
Proof. intros (Q & H0 & HN & HD). now apply HD. Qed.
Lemma r_oos {A B C D} (R : A -> B -> Prop) (Q : C -> D -> Prop) it1 it2 r1 r2 : IT R it1 it2 -> res_rel Q r1 r2 ->
  L Q (out_of_scope it1 r1) (out_of_scope it2 r2).
Proof. intros H Hr. eapply r_seq; [now apply (r_drop_iter R)|]. intros s1 s2 HS. now split. Qed.

Lemma r_mk {A B St1 St2} (R : A -> B -> Prop) (Q : St1 -> St2 -> Prop) c1 c2 nx1 nx2 dr1 dr2 :
  Q c1 c2 -> alike (pair_rel Q RS) (opt_rel R) nx1 nx2 -> op1_alike RS Q eq dr1 dr2 ->
  IT R (MkIter St1 c1 nx1 dr1) (MkIter St2 c2 nx2 dr2).
Proof. intros. now exists Q. Qed.
End Prog.

Section Prog2.
Context {S1 S2 X1 X2 : Type} (RS : S1 -> S2 -> Prop) (Q : X1 -> X2 -> Prop).
Notation "'LX'" := (alike (pair_rel Q RS)).
Lemma r_lift {A B} (R : A -> B -> Prop) m1 m2 : alike RS R m1 m2 -> LX R (lift m1) (lift m2).
Proof.
  intros H [x1 s1] [x2 s2] [HX HS]. unfold lift. cbn in *. destruct (H s1 s2 HS) as [H1 H2].
  destruct (m1 s1), (m2 s2). cbn in *. repeat split; auto.
Qed.
Lemma r_self : LX Q self self.
Proof. intros [x1 s1] [x2 s2] [HX HS]. repeat split; auto. Qed.
Lemma r_set x y : Q x y -> LX eq (set_self x) (set_self y).
Proof. intros H [x1 s1] [x2 s2] [HX HS]. repeat split; auto. Qed.
Lemma r_lift_ety {A B} (R : A -> B -> Prop) d1 d2 : ety_alike RS R d1 d2 -> ety_alike (pair_rel Q RS) R (lift_ety d1) (lift_ety d2).
Proof. intros [Hc H]. split; [exact Hc|]. intros x y [x1 s1] [x2 s2] Hx [HX HS]. split; cbn; auto. Qed.
End Prog2.

Section Adapters.
Context {S1 S2 : Type} (RS : S1 -> S2 -> Prop).
Notation "'L'" := (alike RS).
Notation "'IT'" := (iter_alike RS).
Lemma r_slice_iter {A B} (R : A -> B -> Prop) l1 l2 : Forall2 R l1 l2 -> IT R (slice_iter l1) (slice_iter l2).
Proof.
  intros H. apply (r_mk RS R (Forall2 R)); [exact H| |intros a b Hab; now apply r_ret].
  eapply r_bind; [apply r_self|]. intros x y [|u v x' y' Hu Hx]; [now apply r_ret|].
  eapply r_seq; [now apply r_set|]. now apply r_ret.
Qed.
Lemma r_range lo hi : IT eq (range lo hi) (range lo hi).
Proof.
  apply (r_mk RS eq eq); [reflexivity| |intros x y Hx; now apply r_ret].
  eapply r_bind; [apply r_self|]. intros [a b] ? <-. destruct (a <? b); [|now apply r_ret].
  eapply r_seq; [now apply r_set|]. now apply r_ret.
Qed.
Lemma r_imap {A B C D} (R : A -> B -> Prop) (Q : C -> D -> Prop) f1 f2 it1 it2 :
  op1_alike RS R Q f1 f2 -> IT R it1 it2 -> IT Q (imap f1 it1) (imap f2 it2).
Proof.
  intros Hf (P & H0 & HN & HD). apply (r_mk RS Q P); [exact H0| |exact HD].
  eapply r_bind; [exact HN|]. intros [x|] [y|] Hx; cbn in Hx; try contradiction; [|now apply r_ret].
  eapply r_bind; [apply r_lift, Hf, Hx|]. intros u v Hu. now apply r_ret.
Qed.
Lemma r_enumerate {A B} (R : A -> B -> Prop) it1 it2 : IT R it1 it2 -> IT (pair_rel eq R) (enumerate it1) (enumerate it2).
Proof.
  intros (P & H0 & HN & HD). apply (r_mk RS (pair_rel eq R) (pair_rel eq P)); [now split| |intros [k st] [k' st'] [_ H]; now apply HD].
  intros [[k st1] s1] [[k' st2] s2] [[E HP] HS]. cbn in E, HP, HS. subst k'.
  destruct (HN (st1, s1) (st2, s2) (Logic.conj HP HS)) as [H1 [H2 H3]].
  destruct (i_next it1 (st1, s1)) as [r1 [t1 u1]], (i_next it2 (st2, s2)) as [r2 [t2 u2]]. cbn in H1, H2, H3.
  destruct r1 as [[x|]| | |], r2 as [[y|]| | |]; cbn in H1; try contradiction; repeat split; auto.
Qed.
Lemma r_zip {A B C D} (R : A -> B -> Prop) (Q : C -> D -> Prop) d1 d2 ia1 ia2 ib1 ib2 :
  ety_alike RS R d1 d2 -> IT R ia1 ia2 -> IT Q ib1 ib2 -> IT (pair_rel R Q) (zip d1 ia1 ib1) (zip d2 ia2 ib2).
Proof.
  intros Hd (P & H0 & HN & HD) (P' & H0' & HN' & HD').
  apply (r_mk RS (pair_rel R Q) (pair_rel P P')); [now split| |].
  - intros [[sa1 sb1] s1] [[sa2 sb2] s2] [[Ea Eb] HS]. cbn in Ea, Eb, HS.
    destruct (HN (sa1, s1) (sa2, s2) (Logic.conj Ea HS)) as [H1 [H2 H3]].
    destruct (i_next ia1 (sa1, s1)) as [r1 [t1 u1]], (i_next ia2 (sa2, s2)) as [r2 [t2 u2]]. cbn in H1, H2, H3.
    destruct r1 as [[x|]| | |], r2 as [[y|]| | |]; cbn in H1; try contradiction; try (repeat split; auto; fail).
    destruct (HN' (sb1, u1) (sb2, u2) (Logic.conj Eb H3)) as [G1 [G2 G3]].
    destruct (i_next ib1 (sb1, u1)) as [q1 [w1 v1]], (i_next ib2 (sb2, u2)) as [q2 [w2 v2]]. cbn in G1, G2, G3.
    destruct q1 as [[b1|]| | |], q2 as [[b2|]| | |]; cbn in G1; try contradiction; repeat split; cbn; auto; now apply Hd.
  - intros [x1 x2] [y1 y2] [E1 E2]. eapply r_seq; [now apply HD|]. now apply HD'.
Qed.
Lemma r_take {A B} (R : A -> B -> Prop) n it1 it2 : IT R it1 it2 -> IT R (take n it1) (take n it2).
Proof.
  intros (P & H0 & HN & HD). apply (r_mk RS R (pair_rel eq P)); [now split| |intros [k st] [k' st'] [_ H]; now apply HD].
  intros [[k st1] s1] [[k' st2] s2] [[E HP] HS]. cbn in E, HP, HS. subst k'. destruct k as [|k]; [repeat split; auto|].
  destruct (HN (st1, s1) (st2, s2) (Logic.conj HP HS)) as [H1 [H2 H3]].
  destruct (i_next it1 (st1, s1)) as [r1 [t1 u1]], (i_next it2 (st2, s2)) as [r2 [t2 u2]]. cbn in H1, H2, H3.
  repeat split; auto.
Qed.
Lemma r_filter {A B} (R : A -> B -> Prop) fuel d1 d2 p1 p2 it1 it2 : ety_alike RS R d1 d2 ->
  (forall x y, R x y -> p1 x = p2 y) -> IT R it1 it2 -> IT R (filter fuel d1 p1 it1) (filter fuel d2 p2 it2).
Proof.
  intros Hd Hp (P & H0 & HN & HD). apply (r_mk RS R P); [exact H0| |exact HD].
  induction fuel as [|fuel IH]; cbn [filter_next]; [apply r_diverge|].
  eapply r_bind; [exact HN|]. intros [x|] [y|] Hx; cbn in Hx; try contradiction; [|now apply r_ret].
  rewrite (Hp x y Hx). destruct (p2 y); [now apply r_ret|].
  eapply r_seq; [|exact IH]. apply r_tick. intros [a1 s1] [a2 s2] [Ha HS]. split; cbn; [exact Ha|now apply Hd].
Qed.
(** Loops *)
Ltac nx H := match goal with HS : RS ?s1 ?s2 |- _ =>
  let E := fresh "E" in pose proof (r_next RS _ _ _ H s1 s2 HS) as E;
  destruct (next (_, s1)) as [[[?x|]| | |] [?it1' ?t1]]; destruct (next (_, s2)) as [[[?y|]| | |] [?it2' ?t2]];
  try contradiction; [destruct E as (?Hx & ?Hit & ?HS')|destruct E as (?Hit & ?HS')|destruct E as (?Hit & ?HS')|destruct E as (?Hit & ?HS')|destruct E as (?Hit & ?HS')] end.
Lemma r_for_each {A B C D} (R : A -> B -> Prop) (Q : C -> D -> Prop) b1 b2 :
  op2_alike RS Q R Q b1 b2 -> forall fuel it1 it2 x y, IT R it1 it2 -> Q x y ->
  L Q (for_each fuel it1 x b1) (for_each fuel it2 y b2).
Proof.
  intros Hb. induction fuel as [|fuel IH]; intros it1 it2 x y Hit Hx s1 s2 HS; [now split|]. cbn [for_each].
  nx Hit.
  - destruct (Hb x y _ _ Hx Hx0 t1 t2 HS') as [G1 G2].
    destruct (b1 x _ t1) as [[u| | |] v1], (b2 y _ t2) as [[w| | |] v2]; cbn in G1, G2; try contradiction; try (now split).
    + now apply IH.
    + now apply (r_oos RS R).
  - now apply (r_oos RS R).
  - now apply (r_oos RS R).
  - now split.
  - now split.
Qed.
Lemma r_iall {A B} (R : A -> B -> Prop) p1 p2 : op1_alike RS R eq p1 p2 -> forall fuel it1 it2, IT R it1 it2 ->
  L eq (iall fuel it1 p1) (iall fuel it2 p2).
Proof.
  intros Hb. induction fuel as [|fuel IH]; intros it1 it2 Hit s1 s2 HS; [now split|]. cbn [iall].
  nx Hit; try (now split); try (now apply (r_oos RS R)).
  destruct (Hb _ _ Hx t1 t2 HS') as [G1 G2].
  destruct (p1 _ t1) as [[u| | |] v1], (p2 _ t2) as [[w| | |] v2]; cbn in G1, G2; try contradiction; try (now split).
  - subst w. destruct u; [now apply IH|now apply (r_oos RS R)].
  - now apply (r_oos RS R).
Qed.
Lemma r_iany {A B} (R : A -> B -> Prop) p1 p2 : op1_alike RS R eq p1 p2 -> forall fuel it1 it2, IT R it1 it2 ->
  L eq (iany fuel it1 p1) (iany fuel it2 p2).
Proof.
  intros Hb. induction fuel as [|fuel IH]; intros it1 it2 Hit s1 s2 HS; [now split|]. cbn [iany].
  nx Hit; try (now split); try (now apply (r_oos RS R)).
  destruct (Hb _ _ Hx t1 t2 HS') as [G1 G2].
  destruct (p1 _ t1) as [[u| | |] v1], (p2 _ t2) as [[w| | |] v2]; cbn in G1, G2; try contradiction; try (now split).
  - subst w. destruct u; [now apply (r_oos RS R)|now apply IH].
  - now apply (r_oos RS R).
Qed.
Lemma r_icount {A B} (R : A -> B -> Prop) d1 d2 : ety_alike RS R d1 d2 -> forall fuel it1 it2 k, IT R it1 it2 ->
  L eq (icount d1 fuel it1 k) (icount d2 fuel it2 k).
Proof.
  intros Hd. induction fuel as [|fuel IH]; intros it1 it2 k Hit s1 s2 HS; cbn [icount];
    nx Hit; try (now split); try (now apply (r_oos RS R)).
  apply IH; [exact Hit0|]. now apply Hd.
Qed.
(** Collecting *)
Section Coll.
Context {A B : Type} (R : A -> B -> Prop) (d1 : ety S1 A) (d2 : ety S2 B).
Hypothesis Hd : ety_alike RS R d1 d2.
Lemma r_finish c a1 a2 it1 it2 : Forall2 (cell_rel R) a1 a2 -> IT R it1 it2 ->
  L (Forall2 R) (from_iter_finish c d1 a1 it1) (from_iter_finish c d2 a2 it2).
Proof.
  intros Ha Hit. unfold from_iter_finish. destruct (debug c).
  - eapply r_bind; [now apply (r_icount R)|]. intros k ? <-. eapply r_seq; [apply r_assert|]. now apply r_assume.
  - eapply r_bind; [now apply (r_assume RS R)|]. intros v1 v2 Hv. now apply (r_oos RS R).
Qed.
Lemma r_from_iter_loop c : forall k i a1 a2 it1 it2, Forall2 (cell_rel R) a1 a2 -> IT R it1 it2 ->
  L (Forall2 R) (from_iter_loop c d1 k i a1 it1) (from_iter_loop c d2 k i a2 it2).
Proof.
  induction k as [|k IH]; intros i a1 a2 it1 it2 Ha Hit; cbn [from_iter_loop]; [now apply r_finish|].
  intros s1 s2 HS. nx Hit; try (now split); try (now apply (r_oos RS R)).
  - refine (r_bind RS (Forall2 (cell_rel R)) _ _ _ _ _ (r_write RS R a1 a2 i _ _ Ha Hx) _ t1 t2 HS'). intros. now apply IH.
  - refine (r_seq RS _ _ _ _ _ (Forall2 (cell_rel R)) (r_drop_cells RS R d1 d2 Hd a1 a2 0 i Ha) _ t1 t2 HS').
    now apply (r_oos RS R).
Qed.
Lemma r_from_iter c n it1 it2 : IT R it1 it2 -> L (Forall2 R) (from_iter c d1 n it1) (from_iter c d2 n it2).
Proof.
  intros Hit. apply r_from_iter_loop; [|exact Hit]. induction n; cbn; constructor; auto. constructor.
Qed.
(** The owning iterator *)
Lemma r_into n v1 v2 : Forall2 R v1 v2 -> ii_rel R (into_iter n v1) (into_iter n v2).
Proof.
  intros H. split; auto. unfold into_iter. cbn. clear n. induction H; cbn; constructor; auto. now constructor.
Qed.
Lemma r_ii_next c n : alike (pair_rel (ii_rel R) RS) (opt_rel R) (ii_next_fn c d1 n) (ii_next_fn c d2 n).
Proof.
  unfold ii_next_fn. eapply r_bind; [apply r_self|]. intros a b [Ha Hn Hb]. rewrite <- Hn, <- Hb.
  eapply r_seq; [apply r_dbg|]. destruct (_ <? _); [|now apply r_ret]. cbv zeta.
  eapply r_bind; [apply r_add|]. intros nx ? <-. eapply r_seq; [apply r_set; now split|].
  eapply r_bind; [apply r_lift, (r_read RS R d1 d2 Hd); exact Ha|]. intros [x1 y1] [x2 y2] [Hx Hy]. cbn in Hx, Hy.
  eapply r_seq; [apply r_set; now split|]. now apply r_ret.
Qed.
Lemma r_ii_back c n : alike (pair_rel (ii_rel R) RS) (opt_rel R) (ii_next_back_fn c d1 n) (ii_next_back_fn c d2 n).
Proof.
  unfold ii_next_back_fn. eapply r_bind; [apply r_self|]. intros a b [Ha Hn Hb]. rewrite <- Hn, <- Hb.
  eapply r_seq; [apply r_dbg|]. destruct (_ <? _); [|now apply r_ret].
  eapply r_bind; [apply r_sub|]. intros nx ? <-. eapply r_seq; [apply r_set; now split|].
  eapply r_bind; [apply r_lift, (r_read RS R d1 d2 Hd); exact Ha|]. intros [x1 y1] [x2 y2] [Hx Hy]. cbn in Hx, Hy.
  eapply r_seq; [apply r_set; now split|]. now apply r_ret.
Qed.
Lemma r_ii_nth c n k : alike (pair_rel (ii_rel R) RS) (opt_rel R) (ii_nth_fn c d1 n k) (ii_nth_fn c d2 n k).
Proof.
  unfold ii_nth_fn. eapply r_bind; [apply r_self|]. intros a b [Ha Hn Hb]. rewrite <- Hn, <- Hb.
  eapply r_bind; [apply r_add|]. intros hi ? <-.
  eapply r_bind; [apply r_lift, (r_drop_cells RS R d1 d2 Hd); exact Ha|]. intros x y Hx.
  eapply r_bind; [apply r_add|]. intros nx ? <-. eapply r_seq; [apply r_set; now split|]. apply r_ii_next.
Qed.
Lemma r_ii_drop a b : ii_rel R a b -> L eq (ii_drop d1 a) (ii_drop d2 b).
Proof.
  intros [Ha Hn Hb]. unfold ii_drop. rewrite Hn, Hb. eapply r_seq; [now apply (r_drop_cells RS R)|]. now apply r_ret.
Qed.
Lemma r_ii_iter c n a b : ii_rel R a b -> IT R (ii_iter c d1 n a) (ii_iter c d2 n b).
Proof. intros H. apply (r_mk RS R (ii_rel R)); [exact H|apply r_ii_next|]. intros x y Hx. now apply r_ii_drop. Qed.
Lemma r_into_it c n v1 v2 : Forall2 R v1 v2 -> IT R (into_it c d1 n v1) (into_it c d2 n v2).
Proof. intros H. now apply r_ii_iter, r_into. Qed.
Lemma r_rev_iter c n a b : ii_rel R a b -> IT R (rev_iter (ii_diter c d1 n a)) (rev_iter (ii_diter c d2 n b)).
Proof. intros H. apply (r_mk RS R (ii_rel R)); [exact H|apply r_ii_back|]. intros x y Hx. now apply r_ii_drop. Qed.
End Coll.
(** Mutable iteration *)
Lemma r_iter_mut {A B} (R : A -> B -> Prop) b1 b2 : alike (pair_rel R RS) eq b1 b2 ->
  alike (pair_rel (Forall2 R) RS) eq (fun ls => iter_mut_for b1 (fst ls) (snd ls)) (fun ls => iter_mut_for b2 (fst ls) (snd ls)).
Proof.
  intros H [l1 s1] [l2 s2] [HL HS]. cbn in *. revert s1 s2 HS. induction HL as [|x y l1 l2 Hx HL IH]; intros s1 s2 HS; cbn [iter_mut_for]; [fin|].
  destruct (H (x, s1) (y, s2) (Logic.conj Hx HS)) as [G1 [G2 G3]].
  destruct (b1 (x, s1)) as [r1 [u1 v1]], (b2 (y, s2)) as [r2 [u2 v2]]. cbn in G1, G2, G3.
  destruct r1, r2; cbn in G1; try contradiction; try (fin; fail).
  destruct (IH v1 v2 G3) as [K1 [K2 K3]]. destruct (iter_mut_for b1 l1 v1) as [q1 [w1 z1]], (iter_mut_for b2 l2 v2) as [q2 [w2 z2]].
  cbn in *. fin.
Qed.
Lemma r_iter_mut_zip {A B C D} (R : A -> B -> Prop) (Q : C -> D -> Prop) b1 b2 :
  (forall x y, Q x y -> alike (pair_rel R RS) eq (b1 x) (b2 y)) ->
  forall it1 it2, IT Q it1 it2 ->
  alike (pair_rel (Forall2 R) RS) eq (fun ls => iter_mut_zip_for it1 b1 (fst ls) (snd ls)) (fun ls => iter_mut_zip_for it2 b2 (fst ls) (snd ls)).
Proof.
  intros H it1 it2 Hit [l1 s1] [l2 s2] [HL HS]. cbn in *. revert it1 it2 Hit s1 s2 HS.
  induction HL as [|x y l1 l2 Hx HL IH]; intros it1 it2 Hit s1 s2 HS; cbn [iter_mut_zip_for].
  - destruct (r_oos RS Q eq it1 it2 (Ok tt) (Ok tt) Hit eq_refl s1 s2 HS) as [K1 K2].
    destruct (out_of_scope it1 (Ok tt) s1), (out_of_scope it2 (Ok tt) s2). fin.
  - nx Hit.
    + destruct (H _ _ Hx0 (x, t1) (y, t2) (Logic.conj Hx HS')) as [G1 [G2 G3]].
      destruct (b1 _ (x, t1)) as [r1 [u1 v1]], (b2 _ (y, t2)) as [r2 [u2 v2]]. cbn in G1, G2, G3.
      destruct r1, r2; cbn in G1; try contradiction; try (fin; fail).
      * destruct (IH _ _ Hit0 v1 v2 G3) as [K1 [K2 K3]].
        destruct (iter_mut_zip_for it1' b1 l1 v1) as [q1 [w1 z1]], (iter_mut_zip_for it2' b2 l2 v2) as [q2 [w2 z2]].
        cbn in *. fin.
      * destruct (r_oos RS Q (@eq unit) it1' it2' Panic Panic Hit0 I v1 v2 G3) as [K1 K2].
        destruct (out_of_scope it1' Panic v1), (out_of_scope it2' Panic v2). fin.
    + destruct (r_oos RS Q eq it1' it2' (Ok tt) (Ok tt) Hit0 eq_refl t1 t2 HS') as [K1 K2].
      destruct (out_of_scope it1' (Ok tt) t1), (out_of_scope it2' (Ok tt) t2). fin.
    + destruct (r_oos RS Q (@eq unit) it1' it2' Panic Panic Hit0 I t1 t2 HS') as [K1 K2].
      destruct (out_of_scope it1' Panic t1), (out_of_scope it2' Panic t2). fin.
    + fin.
    + fin.
Qed.
End Adapters.
