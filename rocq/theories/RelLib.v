(** * RelLib.v - every modelled function preserves relations between element types. *)
From Coq Require Import List Arith Bool Lia.
From Verif Require Import Rust Iter Elem VectorM MatIterM MatrixM ArithM OpsM CmpM FmtM SpecCommon Harness.
From Verif Require Import SpecRel RelProofs.
Import ListNotations.

Lemma r_by_ref {S1 S2 X1 X2 A B} (RS : S1 -> S2 -> Prop) (Q : X1 -> X2 -> Prop) (R : A -> B -> Prop) nx1 nx2 :
  alike (pair_rel Q RS) (opt_rel R) nx1 nx2 -> iter_alike (pair_rel Q RS) R (by_ref nx1) (by_ref nx2).
Proof.
  intros H. apply (r_mk _ R eq); [reflexivity| |intros x y Hx; now apply r_ret].
  apply r_lift. exact H.
Qed.
Lemma r_nil {A B} (R : A -> B -> Prop) : Forall2 R [] []. Proof. constructor. Qed.
Lemma r_cons {A B} (R : A -> B -> Prop) x y l1 l2 : R x y -> Forall2 R l1 l2 -> Forall2 R (x :: l1) (y :: l2).
Proof. now constructor. Qed.
Lemma r_eq1 {S1 S2 A B C} (RS : S1 -> S2 -> Prop) (R : B -> C -> Prop) (f : A -> M S1 B) (g : A -> M S2 C) :
  (forall x, alike RS R (f x) (g x)) -> op1_alike RS eq R f g.
Proof. intros H x ? <-. apply H. Qed.

Section Vec.
Context {S1 S2 : Type} (RS : S1 -> S2 -> Prop) (c : cfg).
Notation "'L'" := (alike RS).
Notation "'E'" := (ety_alike RS).
Notation "'IT'" := (iter_alike RS).

Lemma r_vgenerate {A B} (R : A -> B -> Prop) d1 d2 n f g : E R d1 d2 -> (forall i, L R (f i) (g i)) ->
  L (Forall2 R) (vgenerate c d1 n f) (vgenerate c d2 n g).
Proof. intros Hd H. apply r_from_iter; [exact Hd|]. eapply r_imap; [|apply r_range]. now apply r_eq1. Qed.
Lemma r_viter {A B} (R : A -> B -> Prop) v w : Forall2 R v w -> IT R (viter v) (viter w).
Proof. apply r_slice_iter. Qed.
Lemma r_cloned {A B} (R : A -> B -> Prop) f g it1 it2 : op1_alike RS R R f g -> IT R it1 it2 -> IT R (cloned f it1) (cloned g it2).
Proof. apply r_imap. Qed.
Lemma r_vget {A B} (R : A -> B -> Prop) n v w i : Forall2 R v w -> L R (vget_unchecked c n v i) (vget_unchecked c n w i).
Proof. intros H. eapply r_seq; [apply r_dbg|]. now apply r_get. Qed.
Lemma r_vset {A B} (R : A -> B -> Prop) n v w i x y : Forall2 R v w -> R x y ->
  L (Forall2 R) (vset_unchecked c n v i x) (vset_unchecked c n w i y).
Proof. intros H Hx. eapply r_seq; [apply r_dbg|]. now apply r_assign_unchecked. Qed.
Lemma r_vindex {A B} (R : A -> B -> Prop) v w i : Forall2 R v w -> L R (vindex v i) (vindex w i).
Proof. apply r_slice. Qed.
Lemma r_vindex_set {A B} (R : A -> B -> Prop) v w i x y : Forall2 R v w -> R x y -> L (Forall2 R) (vindex_set v i x) (vindex_set w i y).
Proof. apply r_assign. Qed.
Lemma r_vindex_static {A B} (R : A -> B -> Prop) n v w i : Forall2 R v w -> L R (vindex_static c n v i) (vindex_static c n w i).
Proof. intros H. destruct i; now apply r_vget. Qed.
Lemma r_vindex_static_set {A B} (R : A -> B -> Prop) n v w i x y : Forall2 R v w -> R x y ->
  L (Forall2 R) (vindex_static_set c n v i x) (vindex_static_set c n w i y).
Proof. intros H. destruct i; now apply r_vset. Qed.
Lemma r_vclone {A B} (R : A -> B -> Prop) d1 d2 n f g : E R d1 d2 -> op1_alike RS R R f g ->
  op1_alike RS (Forall2 R) (Forall2 R) (vclone c d1 n f) (vclone c d2 n g).
Proof. intros Hd H v w Hv. apply r_from_iter; [exact Hd|]. apply r_cloned; [exact H|]. now apply r_viter. Qed.
Lemma r_vdefault {A B} (R : A -> B -> Prop) d1 d2 n f g : E R d1 d2 -> L R f g -> L (Forall2 R) (vdefault c d1 n f) (vdefault c d2 n g).
Proof. intros Hd H. now apply r_vgenerate. Qed.

Definition opf {S X Y Z} (op : X -> Y -> M S Z) (p : X * Y) := op (fst p) (snd p).
Lemma r_opf {A B C D G H} (RA : A -> B -> Prop) (RB : C -> D -> Prop) (RC : G -> H -> Prop) f g :
  op2_alike RS RA RB RC f g -> op1_alike RS (pair_rel RA RB) RC (fun p => f (fst p) (snd p)) (fun p => g (fst p) (snd p)).
Proof. intros K [a b] [a' b'] [H1 H2]. now apply K. Qed.
Lemma r_vzip_vv {A B C D G H} (RA : A -> B -> Prop) (RB : C -> D -> Prop) (RC : G -> H -> Prop) da da' db db' dc dc' n f g :
  E RA da da' -> E RB db db' -> E RC dc dc' -> op2_alike RS RA RB RC f g ->
  op2_alike RS (Forall2 RA) (Forall2 RB) (Forall2 RC) (vzip_vv c da db dc n f) (vzip_vv c da' db' dc' n g).
Proof.
  intros Ha Hb Hc K x y u v Hx Hu. apply r_from_iter; [exact Hc|]. eapply r_imap; [apply r_opf; exact K|].
  apply r_zip; [exact Ha| |]; now apply r_into_it.
Qed.
Lemma r_vzip_vr {A B C D G H} (RA : A -> B -> Prop) (RB : C -> D -> Prop) (RC : G -> H -> Prop) da da' dc dc' n f g :
  E RA da da' -> E RC dc dc' -> op2_alike RS RA RB RC f g ->
  op2_alike RS (Forall2 RA) (Forall2 RB) (Forall2 RC) (vzip_vr c da dc n f) (vzip_vr c da' dc' n g).
Proof.
  intros Ha Hc K x y u v Hx Hu. apply r_from_iter; [exact Hc|]. eapply r_imap; [apply r_opf; exact K|].
  apply r_zip; [exact Ha|now apply r_into_it|now apply r_viter].
Qed.
Lemma r_vzip_rv {A B C D G H} (RA : A -> B -> Prop) (RB : C -> D -> Prop) (RC : G -> H -> Prop) db db' dc dc' n f g :
  E RB db db' -> E RC dc dc' -> op2_alike RS RA RB RC f g ->
  op2_alike RS (Forall2 RA) (Forall2 RB) (Forall2 RC) (vzip_rv c db dc n f) (vzip_rv c db' dc' n g).
Proof.
  intros Hb Hc K x y u v Hx Hu. apply r_from_iter; [exact Hc|]. eapply r_imap; [apply r_opf; exact K|].
  apply r_zip; [apply r_ref_ety|now apply r_viter|now apply r_into_it].
Qed.
Lemma r_vzip_rr {A B C D G H} (RA : A -> B -> Prop) (RB : C -> D -> Prop) (RC : G -> H -> Prop) dc dc' n f g :
  E RC dc dc' -> op2_alike RS RA RB RC f g ->
  op2_alike RS (Forall2 RA) (Forall2 RB) (Forall2 RC) (vzip_rr c dc n f) (vzip_rr c dc' n g).
Proof.
  intros Hc K x y u v Hx Hu. apply r_from_iter; [exact Hc|]. eapply r_imap; [apply r_opf; exact K|].
  apply r_zip; [apply r_ref_ety|now apply r_viter|now apply r_viter].
Qed.
Lemma r_vop_assign {A B C D} (RA : A -> B -> Prop) (RB : C -> D -> Prop) db db' n f g :
  E RB db db' -> (forall x y, RB x y -> alike (pair_rel RA RS) eq (f x) (g y)) ->
  forall u v, Forall2 RB u v -> alike (pair_rel (Forall2 RA) RS) eq (vop_assign c db n f u) (vop_assign c db' n g v).
Proof. intros Hb K u v Hu. apply (r_iter_mut_zip RS RA RB); [exact K|]. now apply r_into_it. Qed.
Lemma r_vscale {A B C D G H} (RA : A -> B -> Prop) (RB : C -> D -> Prop) (RC : G -> H -> Prop) da da' dc dc' n f g cl cl' :
  E RA da da' -> E RC dc dc' -> op2_alike RS RA RB RC f g -> op1_alike RS RB RB cl cl' ->
  op2_alike RS (Forall2 RA) RB (Forall2 RC) (vscale c da dc n f cl) (vscale c da' dc' n g cl').
Proof.
  intros Ha Hc K Kc x y u v Hx Hu. apply r_from_iter; [exact Hc|]. eapply r_imap; [|now apply (r_into_it RS RA)].
  intros a b Hab. eapply r_bind; [now apply Kc|]. intros. now apply K.
Qed.
Lemma r_vscale_assign {A B C D} (RA : A -> B -> Prop) (RB : C -> D -> Prop) f g cl cl' :
  (forall x y, RB x y -> alike (pair_rel RA RS) eq (f x) (g y)) -> op1_alike RS RB RB cl cl' ->
  forall u v, RB u v -> alike (pair_rel (Forall2 RA) RS) eq (vscale_assign f cl u) (vscale_assign g cl' v).
Proof.
  intros K Kc u v Hu. apply (r_iter_mut RS RA). eapply r_bind; [apply r_lift, Kc, Hu|]. exact K.
Qed.
Lemma r_vneg {A B C D} (RA : A -> B -> Prop) (RB : C -> D -> Prop) da da' db db' n f g :
  E RA da da' -> E RB db db' -> op1_alike RS RA RB f g ->
  op1_alike RS (Forall2 RA) (Forall2 RB) (vneg c da db n f) (vneg c da' db' n g).
Proof. intros Ha Hb K u v Hu. apply r_from_iter; [exact Hb|]. eapply r_imap; [exact K|]. now apply r_into_it. Qed.

(** One number type *)
Section Num.
Context {A B : Type} (R : A -> B -> Prop) (d1 : ety S1 A) (d2 : ety S2 B) (o1 : ops S1 A) (o2 : ops S2 B).
Hypothesis Hd : E R d1 d2.
Hypothesis HO : ring_alike RS R o1 o2.
Lemma r_sumfold {C D} (Q : C -> D -> Prop) k f g it1 it2 : op1_alike RS Q R f g -> IT Q it1 it2 ->
  L R (fold k (imap f it1) (o_zero o1) (o_add o1)) (fold k (imap g it2) (o_zero o2) (o_add o2)).
Proof. intros K H. eapply r_for_each; [apply HO|eapply r_imap; [exact K|exact H]|apply HO]. Qed.
Lemma r_vis_zero n v w : ops_alike RS R o1 o2 -> Forall2 R v w -> L eq (vis_zero o1 n v) (vis_zero o2 n w).
Proof. intros HA H. eapply r_iall; [|apply r_viter, H]. intros x y Hx. apply r_ret. now apply (oa_is_zero RS R o1 o2 HA). Qed.
Lemma r_vdot n : op2_alike RS (Forall2 R) (Forall2 R) R (vdot o1 n) (vdot o2 n).
Proof.
  intros a b u v Ha Hu. eapply r_sumfold; [apply r_opf, HO|]. apply r_zip; [apply r_ref_ety| |]; (apply r_cloned; [apply HO|]; now apply r_viter).
Qed.
Lemma r_vidx v w i : Forall2 R v w -> L R (vidx c o1 v i) (vidx c o2 w i).
Proof. intros H. eapply r_bind; [destruct i; now apply (r_vget R)|]. intros. now apply HO. Qed.
Lemma r_cross_term a b u v i j k l : Forall2 R a b -> Forall2 R u v -> L R (cross_term c o1 a u i j k l) (cross_term c o2 b v i j k l).
Proof.
  intros Ha Hu. unfold cross_term. do 2 (eapply r_bind; [now apply r_vidx|intros]). eapply r_bind; [now apply HO|intros].
  do 2 (eapply r_bind; [now apply r_vidx|intros]). eapply r_bind; [now apply HO|intros]. now apply HO.
Qed.
Lemma r_vcross : op2_alike RS (Forall2 R) (Forall2 R) (Forall2 R) (vcross c o1) (vcross c o2).
Proof.
  intros a b u v Ha Hu. do 3 (eapply r_bind; [now apply r_cross_term|intros]). apply r_ret. repeat (apply r_cons; [assumption|]). apply r_nil.
Qed.
Lemma r_vsum n : op1_alike RS (Forall2 R) R (vsum o1 n) (vsum o2 n).
Proof. intros v w Hv. eapply r_sumfold; [apply HO|]. now apply r_viter. Qed.
End Num.
Lemma r_vnorm {A B} (R : A -> B -> Prop) (o1 : fops S1 A) (o2 : fops S2 B) n :
  ring_alike RS R (f_ops o1) (f_ops o2) -> op1_alike RS R R (f_powi2 o1) (f_powi2 o2) -> op1_alike RS R R (f_sqrt o1) (f_sqrt o2) ->
  op1_alike RS (Forall2 R) R (vnorm o1 n) (vnorm o2 n).
Proof.
  intros HO H2 Hs v w Hv. eapply r_bind; [|exact Hs]. eapply r_sumfold; [exact HO|exact H2|].
  apply r_cloned; [apply HO|]. now apply r_viter.
Qed.
Lemma r_vnormalized {A B} (R : A -> B -> Prop) d1 d2 (o1 : fops S1 A) (o2 : fops S2 B) n : E R d1 d2 ->
  ops_alike RS R (f_ops o1) (f_ops o2) -> op1_alike RS R R (f_powi2 o1) (f_powi2 o2) -> op1_alike RS R R (f_sqrt o1) (f_sqrt o2) ->
  op1_alike RS (Forall2 R) (Forall2 R) (vnormalized c d1 o1 n) (vnormalized c d2 o2 n).
Proof.
  intros Hd HA H2 Hs v w Hv. pose proof (oa_ring _ _ _ _ HA) as HO. eapply r_bind; [apply (r_vclone R); [exact Hd|apply HO|exact Hv]|]. intros x y Hx.
  eapply r_bind; [now apply (r_vnorm R)|]. intros a b Hab. apply (r_vscale R R R); auto; [apply HA|apply HO].
Qed.

(** Ordering *)
Section Ord.
Context {A B : Type} (R : A -> B -> Prop) (cl1 : A -> M S1 A) (cl2 : B -> M S2 B).
Hypothesis Hcl : op1_alike RS R R cl1 cl2.
Section By.
Variables (comp1 : A -> A -> M S1 comparison) (comp2 : B -> B -> M S2 comparison).
Hypothesis Hco : op2_alike RS R R eq comp1 comp2.
Lemma r_vmax_by n : op1_alike RS (Forall2 R) R (vmax_by cl1 comp1 n) (vmax_by cl2 comp2 n).
Proof.
  intros v w Hv s1 s2 HS. unfold vmax_by. pose proof (r_next RS R _ _ (r_viter R v w Hv) s1 s2 HS) as E0.
  destruct (next (viter v, s1)) as [[[x|]| | |] [it1 t1]], (next (viter w, s2)) as [[[y|]| | |] [it2 t2]]; try contradiction;
    try (now split; destruct E0).
  destruct E0 as (Hx & Hit & HS').
  refine (r_bind RS R R _ _ _ _ (r_for_each RS R R _ _ _ n it1 it2 x y Hit Hx) _ t1 t2 HS'); [|intros; now apply Hcl].
  intros a b u z Ha Hu. eapply r_bind; [now apply Hco|]. intros o ? <-. destruct o; now apply r_ret.
Qed.
Lemma r_mmax_by n : op1_alike RS (Forall2 (Forall2 R)) R (mmax_by cl1 comp1 n) (mmax_by cl2 comp2 n).
Proof.
  intros v w Hv. unfold mmax_by. eapply r_bind.
  - apply (r_for_each RS (Forall2 R) (opt_rel R)); [|now apply r_viter|exact I].
    intros a b u z Ha Hu. apply (r_for_each RS R (opt_rel R)); [|now apply r_viter|exact Ha].
    intros [a'|] [b'|] u' z' Ha' Hu'; cbn in Ha'; try contradiction; [|now apply r_ret].
    eapply r_bind; [now apply Hco|]. intros o ? <-. destruct o; now apply r_ret.
  - intros x y Hx. eapply r_bind; [apply r_unwrap, Hx|]. intros. now apply Hcl.
Qed.
(** The effectful selection of CmpM.v *)
Lemma r_owning {C D G H} (Q : C -> D -> Prop) (V : G -> H -> Prop) d1 d2 x y m1 m2 :
  E Q d1 d2 -> Q x y -> L V m1 m2 -> L V (owning d1 x m1) (owning d2 y m2).
Proof.
  intros Hd Hx Hm s1 s2 HS. unfold owning. destruct (Hm s1 s2 HS) as [H1 H2].
  destruct (m1 s1) as [[u| | |] t1], (m2 s2) as [[v| | |] t2]; cbn in *; try contradiction; split; auto; now apply Hd.
Qed.
Lemma r_select_loop d1 d2 rep : E R d1 d2 -> forall fuel it1 it2 x y, IT R it1 it2 -> R x y ->
  L R (select_loop d1 comp1 rep fuel it1 x) (select_loop d2 comp2 rep fuel it2 y).
Proof.
  intros Hd. induction fuel as [|fuel IH]; intros it1 it2 x y Hit Hx s1 s2 HS; [now split|]. cbn [select_loop].
  pose proof (r_next RS R _ _ Hit s1 s2 HS) as E0.
  destruct (next (it1, s1)) as [[[u|]| | |] [it1' t1]], (next (it2, s2)) as [[[v|]| | |] [it2' t2]]; try contradiction;
    try (now split; destruct E0).
  - destruct E0 as (Hu & Hit' & HS'). destruct (Hco _ _ _ _ Hx Hu t1 t2 HS') as [G1 G2].
    destruct (comp1 x u t1) as [[a| | |] v1], (comp2 y v t2) as [[b| | |] v2]; cbn in G1, G2; try contradiction; try (now split).
    + subst b. destruct (rep a); apply IH; auto; now apply Hd.
    + apply (r_owning R R d1 d2 x y); auto; [now apply (r_oos RS R)|]. now apply Hd.
  - destruct E0 as [Hit' HS']. now apply (r_oos RS R).
  - destruct E0 as [Hit' HS']. apply (r_owning R R d1 d2 x y); auto. now apply (r_oos RS R).
Qed.
Lemma r_select d1 d2 rep fuel it1 it2 : E R d1 d2 -> IT R it1 it2 ->
  L (opt_rel R) (select d1 comp1 rep fuel it1) (select d2 comp2 rep fuel it2).
Proof.
  intros Hd Hit s1 s2 HS. unfold select. pose proof (r_next RS R _ _ Hit s1 s2 HS) as E0.
  destruct (next (it1, s1)) as [[[u|]| | |] [it1' t1]], (next (it2, s2)) as [[[v|]| | |] [it2' t2]]; try contradiction;
    try (now split; destruct E0).
  - destruct E0 as (Hu & Hit' & HS').
    refine (r_bind RS R (opt_rel R) _ _ _ _ (r_select_loop d1 d2 rep Hd fuel _ _ _ _ Hit' Hu) _ t1 t2 HS'). intros. now apply r_ret.
  - destruct E0 as [Hit' HS']. now apply (r_oos RS R (opt_rel R)).
  - destruct E0 as [Hit' HS']. now apply (r_oos RS R (opt_rel R)).
Qed.
Lemma r_vselect rep n : op1_alike RS (Forall2 R) R (vselect_m rep cl1 comp1 n) (vselect_m rep cl2 comp2 n).
Proof.
  intros v w Hv. eapply r_bind; [apply r_select; [apply r_ref_ety|now apply r_viter]|].
  intros [x|] [y|] Hx; cbn in Hx; try contradiction; [|apply r_panic].
  eapply r_bind; [now apply Hcl|]. intros a b Hab. now apply r_unwrap.
Qed.
Lemma r_mselect d1 d2 rep n : E R d1 d2 -> op1_alike RS (Forall2 (Forall2 R)) R
  (fun m => o <- select d1 comp1 rep n (imap (vselect_m rep cl1 comp1 n) (viter m)) ;; unwrap o)
  (fun m => o <- select d2 comp2 rep n (imap (vselect_m rep cl2 comp2 n) (viter m)) ;; unwrap o).
Proof.
  intros Hd v w Hv. eapply r_bind; [apply r_select; [exact Hd|]|].
  - eapply r_imap; [apply r_vselect|]. now apply r_viter.
  - intros. now apply r_unwrap.
Qed.
Lemma r_clamp_one mn1 mn2 mx1 mx2 : R mn1 mn2 -> R mx1 mx2 -> op1_alike RS R R (clamp_one cl1 comp1 mn1 mx1) (clamp_one cl2 comp2 mn2 mx2).
Proof.
  intros H1 H2 x y Hx. eapply r_bind.
  - eapply r_bind; [now apply Hco|]. intros o ? <-. apply (r_ret RS R). now destruct o.
  - intros a b Hab. eapply r_bind.
    + eapply r_bind; [now apply Hco|]. intros o ? <-. apply (r_ret RS R). now destruct o.
    + intros. now apply Hcl.
Qed.
Lemma r_vclamped d1 d2 n mn1 mn2 mx1 mx2 v w : E R d1 d2 -> R mn1 mn2 -> R mx1 mx2 -> Forall2 R v w ->
  L (Forall2 R) (vclamped_m c d1 cl1 comp1 n v mn1 mx1) (vclamped_m c d2 cl2 comp2 n w mn2 mx2).
Proof.
  intros Hd H1 H2 Hv. apply (r_owning R); auto. apply (r_owning R); auto. apply r_from_iter; [exact Hd|].
  eapply r_imap; [now apply r_clamp_one|]. now apply r_viter.
Qed.
Lemma r_mclamped d1 d2 row col mn1 mn2 mx1 mx2 v w : E R d1 d2 -> R mn1 mn2 -> R mx1 mx2 -> Forall2 (Forall2 R) v w ->
  L (Forall2 (Forall2 R)) (mclamped_m c d1 cl1 comp1 row col v mn1 mx1) (mclamped_m c d2 cl2 comp2 row col w mn2 mx2).
Proof.
  intros Hd H1 H2 Hv. apply (r_owning R); auto. apply (r_owning R); auto. apply r_from_iter; [now apply r_vec_ety|].
  apply (r_imap RS (Forall2 R)); [|now apply r_viter]. intros r q Hr. apply r_from_iter; [exact Hd|].
  eapply r_imap; [now apply r_clamp_one|]. now apply r_viter.
Qed.
Lemma r_clamp_slot d1 d2 mn1 mn2 mx1 mx2 : E R d1 d2 -> R mn1 mn2 -> R mx1 mx2 ->
  alike (pair_rel R RS) eq (clamp_slot d1 cl1 comp1 mn1 mx1) (clamp_slot d2 cl2 comp2 mn2 mx2).
Proof.
  intros Hd H1 H2. eapply r_bind; [apply r_self|]. intros x y Hx.
  eapply r_bind; [apply r_lift; apply r_clamp_one; eauto|]. intros a b Hab.
  eapply r_seq; [apply r_lift, r_tick; intros; now apply Hd|]. now apply r_set.
Qed.
End By.
End Ord.
Lemma r_owning_mut {X Y C D G H} (P : X -> Y -> Prop) (Q : C -> D -> Prop) (V : G -> H -> Prop) d1 d2 x y m1 m2 :
  E Q d1 d2 -> Q x y -> alike (pair_rel P RS) V m1 m2 -> alike (pair_rel P RS) V (owning_mut d1 x m1) (owning_mut d2 y m2).
Proof.
  intros Hd Hx Hm [x1 s1] [x2 s2] [HX HS]. unfold owning_mut, owning. destruct (Hm (x1, s1) (x2, s2) (Logic.conj HX HS)) as [H1 H2].
  destruct (m1 (x1, s1)) as [[u| | |] [t1 v1]], (m2 (x2, s2)) as [[v| | |] [t2 v2]]; cbn in *; try contradiction; destruct H2 as [H2 H3]; cbn in *;
    (split; [auto|split; cbn; auto; now apply Hd]).
Qed.
(** Equality *)
Lemma r_slice_eq {A B C D} (R : A -> B -> Prop) (Q : C -> D -> Prop) p1 p2 : op2_alike RS R Q eq p1 p2 ->
  op2_alike RS (Forall2 R) (Forall2 Q) eq (veq_m p1) (veq_m p2).
Proof.
  intros Hp a b u v Ha Hu. unfold veq_m, slice_eq_m, as_slice. rewrite (f2_len _ _ _ Ha), (f2_len _ _ _ Hu).
  destruct (_ =? _); [|now apply r_ret]. revert u v Hu. induction Ha as [|x y a b Hx Ha IH]; intros u v Hu; cbn [slice_eq_loop]; [now apply r_ret|].
  destruct Hu as [|z w u v Hz Hu]; [now apply r_ret|]. eapply r_bind; [now apply Hp|]. intros e ? <-. destruct e; [now apply IH|now apply r_ret].
Qed.
Lemma r_meq_m {A B} (R : A -> B -> Prop) p1 p2 : op2_alike RS R R eq p1 p2 ->
  op2_alike RS (Forall2 (Forall2 R)) (Forall2 (Forall2 R)) eq (meq_m p1) (meq_m p2).
Proof. intros Hp. apply (r_slice_eq (Forall2 R) (Forall2 R)). now apply r_slice_eq. Qed.
End Vec.
