(** * PropsMeta.v - properties C61-C63, C67: macros, type-level numbers, impl selection. *)
From Coq Require Import List Arith Bool Lia.
From Verif Require Import MetaM SpecCommon.
Import ListNotations.

Lemma tsucc_val t : to_usize (tsucc t) = to_usize t + 1.
Proof. induction t as [|u IH []]; cbn in *; lia. Qed.
Lemma U_val n : to_usize (U n) = n.
Proof. induction n as [|n IH]; [reflexivity|]. cbn [U]. rewrite tsucc_val, IH. lia. Qed.
Lemma tadd_one t : tadd (U 1) t = tsucc t.
Proof. destruct t as [|u []]; reflexivity. Qed.
Lemma tnum_eqb_refl t : tnum_eqb t t = true.
Proof. induction t as [|u IH []]; cbn; rewrite ?IH; reflexivity. Qed.
Lemma tnum_eqb_eq a b : tnum_eqb a b = true -> a = b.
Proof.
  revert b. induction a as [|u IH x]; intros [|v y] H; cbn in H; try discriminate; [reflexivity|].
  apply andb_true_iff in H. destruct H as [H1 H2]. apply IH in H1. subst. destruct x, y; cbn in H2; congruence.
Qed.

(** ** C61 *)
(** The type-level counts are typenum's constants for the numbers of elements / rows /
    elements of the first row - as types, not merely as values. *)
Lemma count_gen {E} (f : list E -> tnum) : (forall l, f l = match l with [] => U 0 | [_] => U 1 | _ :: rest => tadd (U 1) (f rest) end) ->
  forall l, f l = U (length l).
Proof.
  intros H l. induction l as [|x l IH]; [now rewrite H|]. rewrite H. destruct l as [|y l]; [reflexivity|].
  rewrite IH, tadd_one. reflexivity.
Qed.
Theorem C61_vector_count : forall E (elems : list E), vector_count elems = U (length elems).
Proof. intros E. apply count_gen. intros [|? [|? ?]]; reflexivity. Qed.
Print Assumptions C61_vector_count.
Theorem C61_matrix_count : forall E (rows : list (list E)),
  matrix_countrow rows = U (length rows) /\ matrix_countcol rows = U (length (hd [] rows)).
Proof.
  intros E rows. split; [apply (count_gen (@matrix_countrow E)); intros [|? [|? ?]]; reflexivity|].
  destruct rows as [|r rows]; [reflexivity|]. cbn [hd].
  transitivity (matrix_countcol1 r); [destruct r, rows; reflexivity|]. apply (count_gen (@matrix_countcol1 E)). intros [|? [|? ?]]; reflexivity.
Qed.
Print Assumptions C61_matrix_count.
(** The type-level addition the counting macros use is addition, as values and as types. *)
Theorem C61_type_addition : (forall a b : tnum, to_usize (tadd a b) = to_usize a + to_usize b) /\
  (forall i j : nat, tadd (U i) (U j) = U (i + j)).
Proof.
  assert (H0 : forall a, tadd a UTerm = a) by (intros [|u []]; reflexivity).
  assert (HS : forall a b, tadd (tsucc a) b = tsucc (tadd a b)).
  { induction a as [|u IH x]; intros [|v y]; [reflexivity|cbn [tsucc tadd]; destruct y; reflexivity|now rewrite !H0|].
    destruct x, y; cbn [tadd tsucc]; rewrite ?IH; reflexivity. }
  split.
  - induction a as [|u IH x]; intros b; [reflexivity|]; destruct b as [|v y]; [rewrite H0; cbn; lia|]. destruct x, y; cbn [tadd to_usize bit_val]; rewrite ?tsucc_val, IH; lia.
  - induction i as [|i IH]; intros j; [reflexivity|]. cbn [U Nat.add]. now rewrite HS, IH.
Qed.
Print Assumptions C61_type_addition.
Lemma arraylen_U n : arraylen (U n) = if n <=? 32 then [n] else [].
Proof.
  destruct (Nat.leb_spec n 32) as [H|H].
  - do 33 (destruct n as [|n]; [reflexivity|]). lia.
  - unfold arraylen. assert (G : forall tb, (forall p, In p tb -> to_usize (fst p) <= 32) -> filter (fun p => tnum_eqb (fst p) (U n)) tb = @nil (tnum * nat)).
    { induction tb as [|p tb IH]; intros Hp; [reflexivity|]. cbn [filter]. destruct (tnum_eqb (fst p) (U n)) eqn:E.
      - apply tnum_eqb_eq in E. specialize (Hp p (or_introl eq_refl)). rewrite E, U_val in Hp. lia.
      - apply IH. intros; apply Hp; now right. }
    rewrite G; [reflexivity|]. apply Forall_forall. repeat (apply Forall_cons; [vm_compute; lia|]). apply Forall_nil.
Qed.
(** A literal compiles exactly when it has at most 32 elements; a matrix literal exactly
    when all rows are as long as the first and both dimensions are at most 32. *)
Theorem C61_accepts :
  forall E,
  (forall elems : list E, vector_typechecks elems = true <-> length elems <= 32) /\
  (forall rows : list (list E), matrix_typechecks rows = true <->
     rect (length rows) (length (hd [] rows)) rows /\ length rows <= 32 /\ length (hd [] rows) <= 32).
Proof.
  intros E. split.
  - intros elems. unfold vector_typechecks. rewrite C61_vector_count, arraylen_U. destruct (Nat.leb_spec (length elems) 32); cbn.
    + rewrite Nat.eqb_refl. tauto.
    + split; [discriminate|lia].
  - intros rows. unfold matrix_typechecks. destruct (C61_matrix_count E rows) as [-> ->]. rewrite !arraylen_U, andb_true_iff.
    destruct (Nat.leb_spec (length rows) 32); [|cbn; split; [intros [? _]; discriminate|lia]].
    destruct (Nat.leb_spec (length (hd [] rows)) 32); [|cbn; split; [intros [_ ?]; discriminate|lia]].
    cbn [existsb]. rewrite Nat.eqb_refl, !orb_false_r. cbn. rewrite forallb_forall. unfold rect. rewrite Forall_forall. split.
    + intros [_ HF]. repeat split; auto. intros r Hr. now apply Nat.eqb_eq, HF.
    + intros [[_ HF] _]. split; [reflexivity|]. intros r Hr. now apply Nat.eqb_eq, HF.
Qed.
Print Assumptions C61_accepts.
Example C61_ex : vector_typechecks [1; 2; 3] = true /\ matrix_typechecks [[1; 2]; [3; 4]; [5; 6]] = true /\
  matrix_typechecks [[1; 2]; [3]] = false /\ matrix_countrow [[1; 2]; [3; 4]; [5; 6]] = UInt (UInt UTerm B1) B1 /\
  matrix_typechecks (@nil (list nat)) = true /\ matrix_typechecks [@nil nat; []] = true.
Proof. vm_compute. auto 10. Qed.

(** ** C62 *)
(** Canonical type-level numbers: no leading zero digit (typenum produces no others). *)
Fixpoint canonical (t : tnum) : Prop :=
  match t with
  | UTerm => True
  | UInt UTerm B0 => False
  | UInt u _ => canonical u
  end.
Lemma canonical_pos u b : canonical (UInt u b) -> 0 < to_usize (UInt u b).
Proof.
  revert b. induction u as [|v IH x]; intros b H; [destruct b; cbn in *; [tauto|lia]|].
  assert (0 < to_usize (UInt v x)) by (apply IH; destruct b; exact H). cbn in *. lia.
Qed.
Lemma canonical_tail u b : canonical (UInt u b) -> canonical u.
Proof. destruct u; [constructor|]. destruct b; auto. Qed.
Lemma tcompare_sofar_val a : forall b o, canonical a -> canonical b ->
  tcompare_sofar a b o = match Nat.compare (to_usize a) (to_usize b) with Eq => o | r => r end.
Proof.
  induction a as [|u IH x]; intros [|v y] o Ha Hb; [reflexivity| | |].
  - pose proof (canonical_pos _ _ Hb) as P. cbn [tcompare_sofar]. change (to_usize UTerm) with 0.
    destruct (Nat.compare_spec 0 (to_usize (UInt v y))); try lia. reflexivity.
  - pose proof (canonical_pos _ _ Ha) as P. cbn [tcompare_sofar]. change (to_usize UTerm) with 0.
    destruct (Nat.compare_spec (to_usize (UInt u x)) 0); try lia. now destruct x.
  - apply canonical_tail in Ha, Hb. specialize (fun o => IH v o Ha Hb).
    destruct x, y; cbn [tcompare_sofar to_usize bit_val]; rewrite IH;
      destruct (Nat.compare_spec (to_usize u) (to_usize v));
      match goal with |- context [Nat.compare ?p ?q] => destruct (Nat.compare_spec p q) end; try reflexivity; lia.
Qed.
Lemma tcompare_val a b : canonical a -> canonical b -> tcompare a b = Nat.compare (to_usize a) (to_usize b).
Proof. intros Ha Hb. unfold tcompare. rewrite tcompare_sofar_val by auto. now destruct Nat.compare. Qed.
Lemma tsucc_canonical t : canonical t -> canonical (tsucc t).
Proof.
  induction t as [|u IH b]; intros H; [exact I|]. pose proof (canonical_tail _ _ H) as Hu. destruct b; cbn [tsucc].
  - destruct u; [exact I|exact Hu].
  - specialize (IH Hu). destruct (tsucc u) eqn:E; [destruct u as [|? []]; discriminate E|]. exact IH.
Qed.
Lemma U_canonical n : canonical (U n).
Proof. induction n; [exact I|]. now apply tsucc_canonical. Qed.
Theorem C62_min : forall a b : tnum, canonical a -> canonical b ->
  to_usize (Min a b) = Nat.min (to_usize a) (to_usize b) /\ (Min a b = a \/ Min a b = b).
Proof.
  intros a b Ha Hb. unfold Min, MinImpl. rewrite tcompare_val by auto.
  destruct (Nat.compare_spec (to_usize a) (to_usize b)); split; auto; lia.
Qed.
Print Assumptions C62_min.
(** In particular for typenum's constants U0, U1, U2, ... *)
Theorem C62_min_const : forall a b : nat, Min (U a) (U b) = U (Nat.min a b).
Proof.
  intros a b. unfold Min, MinImpl. rewrite tcompare_val, !U_val by apply U_canonical. destruct (Nat.compare_spec a b); f_equal; lia.
Qed.
Print Assumptions C62_min_const.
Example C62_ex : canonical (U 6) /\ Min (U 3) (U 5) = U 3 /\ Min (U 6) (U 5) = U 5 /\ Min (U 4) (U 4) = U 4.
Proof. vm_compute. auto. Qed.

(** ** C63 *)
Definition announced (a : alias_name) : alias_rhs :=
  if a_matrix a then MatOf (a_elem a) (a_dim a) (a_dim a) else VecOf (a_elem a) (a_dim a).
Definition C63_statement : Prop := forall name rhs, In (name, rhs) prelude_aliases -> rhs = announced name.
(** Refuted: [Matrix2f64] is a matrix of [f32]. *)
Theorem C63_matrix2f64_refuted : In (mat_alias 2 F64, MatOf F32 2 2) prelude_aliases /\ announced (mat_alias 2 F64) = MatOf F64 2 2.
Proof. split; [|reflexivity]. do 21 right. left. reflexivity. Qed.
Print Assumptions C63_matrix2f64_refuted.
Theorem C63_refuted : ~ C63_statement.
Proof. intros H. destruct C63_matrix2f64_refuted as [A B]. apply H in A. rewrite B in A. discriminate. Qed.
Print Assumptions C63_refuted.
(** Every other alias is what its name says. *)
Theorem C63_partial : forall name rhs, In (name, rhs) prelude_aliases -> name <> mat_alias 2 F64 -> rhs = announced name.
Proof.
  intros name rhs H N. repeat (destruct H as [[= <- <-]|H]; [reflexivity || contradiction|]). destruct H.
Qed.
Print Assumptions C63_partial.
Example C63_ex : In (mat_alias 3 F64, MatOf F64 3 3) prelude_aliases /\ mat_alias 3 F64 <> mat_alias 2 F64.
Proof. split; [do 23 right; left; reflexivity|discriminate]. Qed.

(** ** C67 *)
Fixpoint digits (t : tnum) : nat := match t with UTerm => 0 | UInt u _ => S (digits u) end.
Lemma tsucc_digits t : digits t <= digits (tsucc t).
Proof. induction t as [|u IH []]; cbn; lia. Qed.
Lemma U_digits n : 4 <= n -> 3 <= digits (U n).
Proof.
  intros H. induction H as [|n H IH]; [cbn; lia|]. cbn [U]. pose proof (tsucc_digits (U n)). lia.
Qed.
Lemma header_big n i : 4 <= n -> header_matches i (U n) = match i with ImplBig => true | _ => false end.
Proof.
  intros H. apply U_digits in H. destruct (U n) as [|[|[|u a] b] d]; cbn in H; try lia. destruct i, d, b; reflexivity.
Qed.
(** The impl chosen for each dimension: the one written for it, the general one from 4 on;
    never two, and none for dimension 0 (nor Cofactor for dimension 1). *)
Definition expected (n : nat) : list impl :=
  match n with 0 => [] | 1 => [ImplU1] | 2 => [ImplU2] | 3 => [ImplU3] | _ => [ImplBig] end.
Theorem C67_impls : forall n : nat,
  applicable determinant_impls (U n) = expected n /\
  applicable inverse_impls (U n) = expected n /\
  applicable cofactor_impls (U n) = (if n =? 1 then [] else expected n).
Proof.
  intros n. destruct (le_lt_dec 4 n) as [H|H].
  - unfold applicable, determinant_impls, inverse_impls, cofactor_impls. cbn [filter]. rewrite !(header_big n) by exact H.
    do 4 (destruct n as [|n]; [lia|]). auto.
  - do 4 (destruct n as [|n]; [vm_compute; auto|]). lia.
Qed.
Print Assumptions C67_impls.
(** The backing array of a supported dimension has that length, and exactly the dimensions
    0..32 are supported. *)
Theorem C67_arraylen : forall n : nat, arraylen (U n) = if n <=? 32 then [n] else [].
Proof. exact arraylen_U. Qed.
Print Assumptions C67_arraylen.
Example C67_ex : arraylen (U 32) = [32] /\ applicable determinant_impls (U 31) = [ImplBig].
Proof. vm_compute. auto. Qed.

(** ** C13, C14: which type-level indices the compiler accepts (the hypotheses of
    [C13_static_index_partial] and [C14_static_index]). *)
Theorem C13_accepted : forall i n : nat, vindex_compiles (U i) (U n) = true <-> i = 0 \/ i < n.
Proof.
  intros i n. destruct i as [|i]; [cbn; tauto|].
  assert (E : vindex_compiles (U (S i)) (U n) = tless (U (S i)) (U n)).
  { pose proof (U_val (S i)) as V. destruct (U (S i)); [discriminate V|reflexivity]. }
  rewrite E. unfold tless. rewrite tcompare_val, !U_val by apply U_canonical.
  destruct (Nat.compare_spec (S i) n); split; try discriminate; try lia; auto.
Qed.
Print Assumptions C13_accepted.
Theorem C14_accepted : forall i j row col : nat,
  mindex_compiles (U i) (U j) (U row) (U col) = true <-> i < row /\ j < col.
Proof.
  intros i j row col.
  assert (E : mindex_compiles (U i) (U j) (U row) (U col) = tless (U i) (U row) && tless (U j) (U col)).
  { unfold mindex_compiles. destruct (U i), (U j); reflexivity. }
  rewrite E. unfold tless. rewrite !tcompare_val, !U_val by apply U_canonical. rewrite andb_true_iff.
  destruct (Nat.compare_spec i row), (Nat.compare_spec j col); split; intros; try lia; try (destruct H1; discriminate); auto.
Qed.
Print Assumptions C14_accepted.
Example C14_accepted_ex : mindex_compiles (U 1) (U 0) (U 2) (U 2) = true /\ mindex_compiles (U 2) (U 2) (U 2) (U 2) = false /\
  vindex_compiles (U 0) (U 0) = true.
Proof. vm_compute. auto. Qed.
