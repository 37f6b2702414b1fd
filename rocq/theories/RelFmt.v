(** * RelFmt.v - formatting preserves relations between element types. *)
From Coq Require Import List Arith Bool Lia.
From Verif Require Import Rust Iter Elem VectorM MatIterM MatrixM ArithM OpsM CmpM FmtM SpecCommon Harness.
From Verif Require Import SpecRel RelProofs RelLib RelMat.
Import ListNotations.

Section Fmt.
Context {S1 S2 : Type} (RS : S1 -> S2 -> Prop) (c : cfg) (w1 : str -> M S1 bool) (w2 : str -> M S2 bool).
Notation "'L'" := (alike RS).
Hypothesis Hw : forall t, L eq (w1 t) (w2 t).
Lemma r_try a b a' b' : L eq a b -> L eq a' b' -> L eq (try_ a a') (try_ b b').
Proof. intros H H'. eapply r_bind; [exact H|]. intros o ? <-. destruct o; [exact H'|now apply r_ret]. Qed.
Section El.
Context {A B : Type} (R : A -> B -> Prop) (f1 : A -> M S1 bool) (f2 : B -> M S2 bool).
Hypothesis Hf : op1_alike RS R eq f1 f2.
Lemma r_debug_list l1 l2 : Forall2 R l1 l2 -> L eq (debug_list w1 f1 l1) (debug_list w2 f2 l2).
Proof.
  intros Hl. apply r_try; [apply Hw|]. apply r_try; [|apply Hw]. generalize true.
  induction Hl as [|x y l1 l2 Hx Hl IH]; intros b; cbn [list_entries]; [now apply r_ret|].
  apply r_try; [destruct b; [now apply r_ret|apply Hw]|]. apply r_try; [now apply Hf|apply IH].
Qed.
Lemma r_vdebug l1 l2 : Forall2 R l1 l2 -> L eq (vdebug w1 f1 l1) (vdebug w2 f2 l2).
Proof. intros Hl. apply r_try; [apply Hw|]. now apply r_debug_list. Qed.
Lemma r_mdebug row m1 m2 : Forall2 (Forall2 R) m1 m2 -> L eq (mdebug c w1 f1 row m1) (mdebug c w2 f2 row m2).
Proof.
  intros Hm. apply r_try; [apply Hw|]. eapply r_bind; [apply r_sub|]. intros la ? <-. apply r_try; [|apply Hw].
  apply (r_iall RS (pair_rel eq (Forall2 R))); [|now apply r_enumerate, r_viter].
  intros [i r] [i' r'] [Hi Hr]. cbn in Hi, Hr. subst i'. apply r_try; [now apply r_debug_list|].
  destruct (_ =? _); [now apply r_ret|apply Hw].
Qed.
End El.
Lemma f2_refl {A} (l : list A) : Forall2 eq l l.
Proof. induction l; constructor; auto. Qed.
Lemma f2_eq {A} (l l' : list A) : Forall2 eq l l' -> l = l'.
Proof. induction 1; congruence. Qed.
Lemma r_eqvindex {S S' A} (RW : S -> S' -> Prop) (l : list A) i : alike RW eq (vindex l i) (vindex l i).
Proof. apply r_vindex, f2_refl. Qed.
Lemma r_eqvset {S S' A} (RW : S -> S' -> Prop) (l : list A) i x : alike RW eq (vindex_set l i x) (vindex_set l i x).
Proof. eapply r_weak; [apply r_vindex_set; [apply f2_refl|reflexivity]|]. apply f2_eq. Qed.
Lemma r_pad k : L eq (pad w1 k) (pad w2 k).
Proof. apply (r_iall RS eq); [|apply r_range]. intros i ? _. apply Hw. Qed.
Lemma r_print_cell slen col ws n j cl : L eq (print_cell c w1 slen col ws n j cl) (print_cell c w2 slen col ws n j cl).
Proof.
  destruct cl as [t k]. cbn [print_cell]. eapply r_bind; [apply r_eqvindex|]. intros wj ? <-. eapply r_bind; [apply r_sub|]. intros u ? <-.
  cbv zeta. apply r_try; [apply r_pad|]. apply r_try; [apply Hw|].
  eapply r_bind; [apply r_eqvindex|]. intros wk ? <-. do 3 (eapply r_bind; [apply r_sub|intros ? ? <-]).
  eapply r_bind; [apply r_add|]. intros rp ? <-. apply r_pad.
Qed.
Lemma r_is_last {S S'} (RW : S -> S' -> Prop) row hs i n : alike RW eq (is_last c row hs i n) (is_last c row hs i n).
Proof.
  eapply r_bind; [apply r_sub|]. intros r1 ? <-. destruct (_ =? _); [|now apply r_ret].
  eapply r_bind; [apply r_eqvindex|]. intros hi ? <-. eapply r_bind; [apply r_sub|]. intros h1 ? <-. now apply r_ret.
Qed.
Lemma r_print_line slen row col ws hs i rw n : L eq (print_line c w1 slen row col ws hs i rw n) (print_line c w2 slen row col ws hs i rw n).
Proof.
  eapply (r_bind RS eq).
  - destruct (_ && _); [now apply r_ret|]. eapply r_bind; [apply r_is_last|]. intros l ? <-. now apply r_ret.
  - intros ch ? <-. apply r_try; [apply Hw|]. apply r_try.
    + apply (r_iall RS (pair_rel eq eq)); [|apply r_enumerate, r_viter, f2_refl].
      intros [j x] [j' x'] [Hj Hx]. cbn in Hj, Hx. subst. apply r_print_cell.
    + eapply (r_bind RS eq); [|intros e ? <-; apply Hw].
      destruct (_ && _); [now apply r_ret|]. eapply r_bind; [apply r_is_last|]. intros l ? <-. now apply r_ret.
Qed.
Lemma r_print_rows slen row col ws hs ss : L eq (print_rows c w1 slen row col ws hs ss) (print_rows c w2 slen row col ws hs ss).
Proof.
  apply r_try; [|now apply r_ret]. apply (r_iall RS (pair_rel eq eq)).
  - intros [i rw] [i' rw'] [Hi Hr]. cbn in Hi, Hr. subst. eapply r_bind; [apply r_eqvindex|]. intros h ? <-.
    apply (r_iall RS eq); [|apply r_range]. intros n ? <-. apply r_print_line.
  - apply r_enumerate, r_into_it; [|apply f2_refl]. split; [reflexivity|]. intros x ? s1 s2 <- HS. cbn. clear - HS.
    induction x; cbn; auto.
Qed.
Lemma r_measure {A B} (R : A -> B -> Prop) slen f1 f2 m1 m2 i j : op1_alike RS R eq f1 f2 -> Forall2 (Forall2 R) m1 m2 ->
  alike (pair_rel eq RS) eq (measure slen f1 m1 i j) (measure slen f2 m2 i j).
Proof.
  intros Hf Hm. eapply r_bind; [now apply (r_mindex _ R)|]. intros x y Hx. eapply r_bind; [apply r_lift, Hf, Hx|]. intros t ? <-. cbv zeta.
  eapply r_bind; [apply r_self|]. intros [ws hs] ? <-. eapply r_bind; [apply r_eqvindex|]. intros wj ? <-.
  eapply (r_bind _ eq); [destruct (_ <? _); [apply r_eqvset|now apply r_ret]|]. intros ws' ? <-. eapply r_seq; [now apply r_set|].
  eapply r_bind; [apply r_eqvindex|]. intros hi ? <-.
  eapply (r_bind _ eq); [destruct (_ <? _); [apply r_eqvset|now apply r_ret]|]. intros hs' ? <-. eapply r_seq; [now apply r_set|].
  now apply r_ret.
Qed.
Lemma r_mdisplay {A B} (R : A -> B -> Prop) slen f1 f2 row col m1 m2 : op1_alike RS R eq f1 f2 -> Forall2 (Forall2 R) m1 m2 ->
  L eq (mdisplay c w1 slen f1 row col m1) (mdisplay c w2 slen f2 row col m2).
Proof.
  intros Hf Hm. eapply r_bind; [apply (r_vdefault RS c eq); [apply r_ref_ety|now apply r_ret]|]. intros ws ws' Hws. apply f2_eq in Hws. subst ws'.
  eapply r_bind; [apply (r_vdefault RS c eq); [apply r_ref_ety|now apply r_ret]|]. intros hs hs' Hhs. apply f2_eq in Hhs. subst hs'.
  intros s1 s2 HS.
  assert (K : alike (pair_rel eq RS) (Forall2 (Forall2 eq))
    (from_iter c (vec_ety pod_ety) row (imap (fun i => from_iter c pod_ety col (imap (fun j => measure slen f1 m1 i j) (range 0 col))) (range 0 row)))
    (from_iter c (vec_ety pod_ety) row (imap (fun i => from_iter c pod_ety col (imap (fun j => measure slen f2 m2 i j) (range 0 col))) (range 0 row)))).
  { apply r_from_iter; [apply r_vec_ety, r_pod_ety|]. apply (r_imap _ eq); [|apply r_range]. intros i ? <-.
    apply r_from_iter; [apply r_pod_ety|]. apply (r_imap _ eq); [|apply r_range]. intros j ? <-. now apply (r_measure R). }
  destruct (K ((ws, hs), s1) ((ws, hs), s2)) as [H1 H2]; [now split|].
  destruct (from_iter c (vec_ety pod_ety) row _ ((ws, hs), s1)) as [r1 [[a1 b1] t1]].
  destruct (from_iter c (vec_ety pod_ety) row _ ((ws, hs), s2)) as [r2 [[a2 b2] t2]].
  cbn in H1, H2. destruct H2 as [Hi Ht]. cbn in Hi, Ht. injection Hi as <- <-.
  destruct r1 as [p1| | |], r2 as [p2| | |]; cbn in H1; try contradiction; try (now split).
  assert (E0 : p1 = p2). { clear - H1. induction H1 as [|u v x x0 Hu Hx IH]; [reflexivity|]. f_equal; [now apply f2_eq|exact IH]. }
  subst p2. now apply r_print_rows.
Qed.
End Fmt.
