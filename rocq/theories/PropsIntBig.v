(** * PropsIntBig.v - more about C51 and C78: determinant and inverse of integer matrices of any size. *)
From Coq Require Import List Arith Bool Lia ZArith.
From Verif Require Import Rust Iter Elem VectorM MatIterM MatrixM ArithM OpsM IntM SpecCommon SpecAlg Harness.
From Verif Require Import IterProofs OwnProofs ChunkProofs VecProofs MatProofs AccProofs Sim Algebra PropsAlg DetLoop OpsPure PropsInt PropsDetInt PropsIntDiv OpsSim.
From Verif Require MxInt.
Import ListNotations.

(** The leading principal minor of order [k]: the determinant of the first [k] rows and columns. *)
Definition leading_minor (k : nat) (m : list (list Z)) : Z := m_det z_arith k (map (firstn k) (firstn k m)).
Definition is_unit (x : Z) : Prop := x = 1%Z \/ x = (-1)%Z.

Lemma int_eq_sim {S} t : sim_ring true eq (int_ops (S := S) true t) z_arith.
Proof.
  assert (C : forall z, sim (S := S) true eq (chk true t z) z).
  { intros z s. unfold chk. destruct ((i_lo t <=? z) && (z <? i_hi t))%Z; [left; exists z; split; reflexivity|right; split; [reflexivity|exists s; reflexivity]]. }
  split; [split|..]; try reflexivity; try (intros x y ? ? <- <-; apply C); try (intros x ? <-; apply C). intros x s. reflexivity.
Qed.
Lemma int_eq_div {S} t x y : (y =? 0)%Z = false -> sim (S := S) true eq (o_div (int_ops true t) x y) (Z.quot x y).
Proof.
  intros Y s. cbn [o_div int_ops]. unfold int_div. rewrite Y. cbv zeta.
  destruct ((i_lo t <=? x ÷ y) && (x ÷ y <? i_hi t))%Z; [left; eexists; split; reflexivity|right; split; [reflexivity|exists s; reflexivity]].
Qed.
Lemma z_eq_sim {S} : sim_ring false eq (z_ops (S := S)) z_arith.
Proof.
  split; [split|..]; try reflexivity; try (intros x y ? ? <- <- s; left; eexists; split; reflexivity); try (intros x ? <- s; left; eexists; split; reflexivity). intros x s. reflexivity.
Qed.
Lemma z_eq_div {S} x y : (y =? 0)%Z = false -> sim (S := S) false eq (o_div z_ops x y) (Z.quot x y).
Proof. intros Y s. left. eexists. split; [|reflexivity]. cbn [o_div z_ops]. now rewrite Y. Qed.
Lemma sim_ret' {S X} (m : M S X) x : sim false eq m x -> returns m x.
Proof. intros H s. destruct (H s) as [(a & E & ->)|[P _]]; [exact E|discriminate]. Qed.
Lemma sim_eop {S X} (m : M S X) x : sim true eq m x -> exact_or_panics m x.
Proof. intros H s. destruct (H s) as [(a & E & ->)|[_ P]]; [left; exact E|right; exact P]. Qed.

(** ** C51 *)
(** Every size: with overflow checks, [determinant()] on a machine integer type returns what the same
    computation on unbounded integers returns, or panics. (For sizes 1-3 that is the determinant:
    C51_up_to_3_partial.) *)
Theorem C51_checked_any_size_partial :
  forall S (c : cfg) (d : ety S Z) t n m, 1 <= n -> n + n <= W c -> rect n n m ->
  exists x, returns (S := S) (det c d z_ops n m) x /\ exact_or_panics (S := S) (det c d (int_ops true t) n m) x.
Proof.
  intros S c d t n m Hn HW R. exists (p_det z_arith Z.quot (fun x => (x =? 0)%Z) n m). split.
  - apply sim_ret'. apply (det_s z_arith Z.quot (fun x => (x =? 0)%Z) false c d z_ops z_eq_sim); auto using z_eq_div.
  - apply sim_eop. apply (det_s z_arith Z.quot (fun x => (x =? 0)%Z) true c d (int_ops true t) (int_eq_sim t)); auto using int_eq_div.
Qed.
Print Assumptions C51_checked_any_size_partial.

(** Above size 3 the result is the determinant when the leading principal minors of order 1 .. n-1 are
    all 1 or -1 (every division is then by 1 or -1) ... *)
Theorem C51_unit_minors_partial :
  forall S (c : cfg) (d : ety S Z) n m (s : S), 4 <= n -> rect n n m ->
  (forall k, 1 <= k -> k < n -> is_unit (leading_minor k m)) ->
  det c d z_ops n m s = (Ok (m_det z_arith n m), s).
Proof. intros S c d n m s Hn R U. apply (MxInt.z_det_units c d s Hn R). exact U. Qed.
Print Assumptions C51_unit_minors_partial.
(** ... and, more generally, when elimination without fractions is possible: when the matrix is a
    product of a unit lower triangular and an upper triangular integer matrix, the latter with a
    diagonal without zeros except possibly in the last place. *)
Theorem C51_exact_elimination_partial :
  forall S (c : cfg) (d : ety S Z) n l u (s : S), 4 <= n ->
  (forall i j, i < j -> j < n -> at2 z_arith l i j = 0%Z) -> (forall i, i < n -> at2 z_arith l i i = 1%Z) ->
  (forall i j, j < i -> i < n -> at2 z_arith u i j = 0%Z) -> (forall i, i + 1 < n -> at2 z_arith u i i <> 0%Z) ->
  det c d z_ops n (m_mul z_arith n n n l u) s = (Ok (m_det z_arith n (m_mul z_arith n n n l u)), s).
Proof.
  intros S c d n l u s Hn HL HL1 HU HD. apply (MxInt.z_det_lu c d s Hn); auto.
  intros k Hk. apply HD. rewrite Nat.add_1_r. exact Hk.
Qed.
Print Assumptions C51_exact_elimination_partial.
Definition m51l : list (list Z) := [[1; 0; 0; 0]; [3; 1; 0; 0]; [-2; 5; 1; 0]; [4; 0; 7; 1]]%Z.
Definition m51u : list (list Z) := [[2; 1; 0; 6]; [0; -3; 1; 1]; [0; 0; 5; 2]; [0; 0; 0; 4]]%Z.
Definition m51g : list (list Z) := [[1; 2; 0; 3]; [2; 3; 1; 0]; [0; 1; 0; 5]; [1; 1; 1; 9]]%Z.
Ltac four i := destruct i as [|[|[|[|i]]]]; try lia.
Example C51_big_ex : forall (c : cfg) (d : ety unit Z),
  det c d z_ops 4 (m_mul z_arith 4 4 4 m51l m51u) tt = (Ok (-120)%Z, tt) /\
  det c d z_ops 4 m51g tt = (Ok (m_det z_arith 4 m51g), tt) /\ m_det z_arith 4 m51g = (-12)%Z.
Proof.
  intros c d. split; [|split; [|reflexivity]].
  - rewrite C51_exact_elimination_partial; [reflexivity|lia|..].
    + intros i j H H'. four i; four j; reflexivity.
    + intros i H. four i; reflexivity.
    + intros i j H H'. four i; four j; reflexivity.
    + intros i H. four i; discriminate.
  - apply C51_unit_minors_partial; [lia|split; [reflexivity|repeat constructor]|]. intros k H1 H2.
    destruct k as [|[|[|[|k]]]]; try lia; unfold is_unit; vm_compute; tauto.
Qed.

(** ** C78 *)
(** With overflow checks the inverse on a machine integer type is, for every size, the one computed on
    unbounded integers, or a panic. *)
Theorem C78_checked_any_size_partial :
  forall S (c : cfg) (d : ety S Z) t n m, 4 <= n -> rect n n m ->
  exists r, returns (S := S) (inverse c d z_ops n m) r /\ exact_or_panics (S := S) (inverse c d (int_ops true t) n m) r.
Proof.
  intros S c d t n m Hn R. exists (p_inv_big z_arith Z.quot (fun x => (x =? 0)%Z) n m). destruct n as [|[|[|[|k]]]]; try lia. split.
  - apply sim_ret'. exact (inv_big_s z_arith Z.quot (fun x => (x =? 0)%Z) false c d z_ops z_eq_sim z_eq_div (fun x => eq_refl) _ m R).
  - apply sim_eop.
    exact (inv_big_s z_arith Z.quot (fun x => (x =? 0)%Z) true c d (int_ops true t) (int_eq_sim t) (int_eq_div t) (fun x => eq_refl) _ m R).
Qed.
Print Assumptions C78_checked_any_size_partial.

Lemma zero_row n m x k : k < n -> rect n n x -> (forall b, b < n -> at2 z_arith x k b = 0%Z) -> ~ z_inverse n m x.
Proof.
  intros Hk R Z (_ & _ & E). apply (f_equal (fun y => at2 z_arith y k k)) in E. unfold m_mul, m_id in E.
  rewrite !at2_mat in E by lia. rewrite Nat.eqb_refl in E.
  assert (G : forall j, j <= n -> sum z_arith j (fun k0 => a_mul z_arith (at2 z_arith x k k0) (at2 z_arith m k0 k)) = 0%Z).
  { induction j as [|j IH]; intros Hj; [reflexivity|]. rewrite sum_S, IH by lia. cbn [a_mul a_add z_arith]. rewrite Z by lia. reflexivity. }
  rewrite G in E by lia. discriminate.
Qed.
(** Above size 3, over unbounded integers, the result is the inverse exactly when all leading principal
    minors are 1 or -1. *)
Theorem C78_exactly_partial :
  forall S (c : cfg) (d : ety S Z) n m (s : S), 4 <= n -> rect n n m ->
  (exists x, inverse c d z_ops n m s = (Ok (Some x), s) /\ z_inverse n m x) <->
  (forall k, 1 <= k <= n -> is_unit (leading_minor k m)).
Proof.
  intros S c d n m s Hn R. destruct (MxInt.z_inverse_all c d s Hn R) as (r & E & H). rewrite E. split.
  - intros (x & Er & I). injection Er as ->. destruct H as (Rx & [(_ & U)|(k & Hk & _ & _ & _ & Z)]); [intros k Hk; apply U; lia|].
    destruct (zero_row n m x k Hk Rx Z I).
  - intros U. destruct r as [x|].
    + exists x. split; [reflexivity|]. destruct H as (Rx & [(I & _)|(k & Hk & _ & N & _)]); [exact I|]. destruct N. apply (U (Datatypes.S k)). lia.
    + destruct H as (k & Hk & _ & N). destruct N. apply (U (Datatypes.S k)). lia.
Qed.
Print Assumptions C78_exactly_partial.
(** Otherwise take the first leading principal minor that is not 1 or -1, of order k. If it is 0 the
    result is [None]; if not, it is [None] or a matrix in which row k (counted from 1) is zero. *)
Theorem C78_otherwise_partial :
  forall S (c : cfg) (d : ety S Z) n m k (s : S), 4 <= n -> rect n n m -> 1 <= k <= n ->
  (forall j, 1 <= j < k -> is_unit (leading_minor j m)) -> ~ is_unit (leading_minor k m) ->
  inverse c d z_ops n m s = (Ok None, s) \/
  (leading_minor k m <> 0%Z /\
   exists x, inverse c d z_ops n m s = (Ok (Some x), s) /\ rect n n x /\ nth_error x (k - 1) = Some (repeat 0%Z n)).
Proof.
  intros S c d n m k s Hn R Hk U N. destruct (MxInt.z_inverse_all c d s Hn R) as (r & E & H).
  destruct r as [x|]; [right|left; exact E]. destruct H as (Rx & [(_ & U')|(k' & Hk' & U' & N' & Z' & Hz)]).
  - destruct N. apply U'; lia.
  - assert (Ek : k = Datatypes.S k').
    { destruct (lt_eq_lt_dec k (Datatypes.S k')) as [[L| ->]|L]; [|reflexivity|].
      - destruct N. apply (U' k); lia.
      - destruct N'. apply (U (Datatypes.S k')). lia. }
    subst k. split; [exact Z'|]. exists x. split; [exact E|]. split; [exact Rx|]. cbn. rewrite Nat.sub_0_r.
    destruct Rx as [L F]. destruct (nth_error x k') as [row|] eqn:Er; [|apply nth_error_None in Er; lia]. f_equal.
    assert (Lr : length row = n) by (apply nth_error_In in Er; now apply (proj1 (Forall_forall _ _) F)).
    apply nth_ext with (d := 0%Z) (d' := 0%Z); [now rewrite repeat_length|]. intros b Hb. rewrite nth_repeat.
    specialize (Hz b ltac:(lia)). unfold at2 in Hz. rewrite (nth_error_nth x k' [] Er) in Hz. exact Hz.
Qed.
Print Assumptions C78_otherwise_partial.
Example C78_big_ex : forall (c : cfg) (d : ety unit Z),
  (exists x, inverse c d z_ops 4 [[1; 2; 0; 3]; [2; 3; 1; 0]; [0; 1; 0; 5]; [1; 1; 1; -4]]%Z tt = (Ok (Some x), tt) /\
     z_inverse 4 [[1; 2; 0; 3]; [2; 3; 1; 0]; [0; 1; 0; 5]; [1; 1; 1; -4]]%Z x) /\
  (exists x, inverse c d z_ops 4 m51 tt = (Ok (Some x), tt) /\ nth_error x 0 = Some [0; 0; 0; 0]%Z).
Proof.
  intros c d. split.
  - apply C78_exactly_partial; [lia|split; [reflexivity|repeat constructor]|]. intros k H.
    destruct k as [|[|[|[|[|k]]]]]; try lia; unfold is_unit; vm_compute; tauto.
  - assert (R : rect 4 4 m51) by (split; [reflexivity|repeat constructor]).
    exists [[0; 0; 0; 0]; [0; 1; 0; 0]; [0; 0; 1; 0]; [0; 0; 0; 1]]%Z. split; [|reflexivity]. cbn [inverse]. unfold inv_big. unfold bind at 1. rewrite mclone_id; [|exact R|reflexivity].
    assert (I : midentity c d (z_ops (S := unit)) 4 tt = (Ok (m_id z_arith 4), tt)) by exact (idm c d z_ops z_arith (ex_semi _ _ (z_exact unit)) 4 tt).
    rewrite (bind_ok I). vm_compute. reflexivity.
Qed.
