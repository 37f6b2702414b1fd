(** * PropsRatio.v - property C100: matrices of Ratio<BigInt> and Ratio<i32>. *)
From Coq Require Import List Arith Bool Lia ZArith Znumtheory.
From Verif Require Import Rust Iter Elem VectorM MatIterM MatrixM ArithM OpsM IntM RatioM SpecCommon SpecAlg SpecRel.
From Verif Require Import IterProofs ChunkProofs MatProofs Sim DetLoop OpsPure OpsSim OpsSim2 PropsRel PropsAlg RelProofs RelLib RelMat.
Set Warnings "-notation-overridden,-ambiguous-paths".
From mathcomp Require Import all_ssreflect all_algebra.
From Verif Require Import SpecMx MxLink MxDet PropsDet PropsInv RatioM.
Set Implicit Arguments.
Unset Strict Implicit.
Unset Printing Implicit Defensive.
Import GRing.Theory.
Local Open Scope ring_scope.
Local Delimit Scope Z_scope with ZZ.
Local Notation map := List.map.

(** ** Specification *)
(** An integer as a rational number, the number a fraction stands for, fractions in lowest terms. *)
Definition zrat (z : Z) : rat :=
  match z with Z0 => 0 | Zpos p => (Pos.to_nat p)%:R | Zneg p => - (Pos.to_nat p)%:R end.
Definition value (x : ratio) : rat := zrat (numer x) / zrat (denom x).
Definition lowest (x : ratio) : Prop := (0 < denom x)%ZZ /\ Z.gcd (numer x) (denom x) = 1%ZZ.
Definition values : list (list ratio) -> list (list rat) := map (map value).
Definition all_lowest (m : list (list ratio)) : Prop := Forall (Forall lowest) m.

(** ** Integers as rationals *)
Lemma zrat_diff a b : zrat (Z.of_nat a - Z.of_nat b) = a%:R - b%:R.
Proof.
case: (leqP b a) => [/subnK H|/ltnW/subnK H].
- move: (a - b)%N H => k <-. rewrite natrD addrK -plusE. have -> : (Z.of_nat (Nat.add k b) - Z.of_nat b = Z.of_nat k)%ZZ by lia.
  case: k => //= k. by rewrite SuccNat2Pos.id_succ.
- move: (b - a)%N H => k <-. rewrite natrD opprD addrCA subrr addr0 -plusE. have -> : (Z.of_nat a - Z.of_nat (Nat.add k a) = - Z.of_nat k)%ZZ by lia.
  case: k => [|k] /=; first by rewrite oppr0. by rewrite SuccNat2Pos.id_succ.
Qed.
Lemma z_diff z : exists a b, z = (Z.of_nat a - Z.of_nat b)%ZZ.
Proof. exists (Z.to_nat z), (Z.to_nat (- z)). lia. Qed.
Lemma zrat_add x y : zrat (x + y) = zrat x + zrat y.
Proof.
have [a [b ->]] := z_diff x. have [e [f ->]] := z_diff y.
have -> : (Z.of_nat a - Z.of_nat b + (Z.of_nat e - Z.of_nat f) = Z.of_nat (Nat.add a e) - Z.of_nat (Nat.add b f))%ZZ by lia.
by rewrite !plusE !zrat_diff !natrD opprD addrACA.
Qed.
Lemma zrat_opp x : zrat (- x) = - zrat x.
Proof. case: x => [|p|p] /=; by rewrite ?oppr0 ?opprK. Qed.
Lemma zrat_sub x y : zrat (x - y) = zrat x - zrat y.
Proof. by rewrite -zrat_opp -zrat_add. Qed.
Lemma zrat_mul x y : zrat (x * y) = zrat x * zrat y.
Proof.
have P : forall p q, (Pos.to_nat (p * q))%:R = (Pos.to_nat p)%:R * (Pos.to_nat q)%:R :> rat by move=> p q; rewrite Pos2Nat.inj_mul natrM.
case: x => [|p|p]; case: y => [|q|q] //=; by rewrite ?mul0r ?mulr0 ?P ?mulrN ?mulNr ?opprK.
Qed.
Lemma zrat_eq0 x : (zrat x == 0) = (x =? 0)%ZZ.
Proof.
case: x => [|p|p] //=; rewrite ?oppr_eq0 Num.Theory.pnatr_eq0; apply/negbTE; have := Pos2Nat.is_pos p; by case: (Pos.to_nat p) => //; lia.
Qed.
Lemma zrat_neq0 x : x <> 0%ZZ -> zrat x != 0.
Proof. rewrite zrat_eq0 => H. by apply/negP => /Z.eqb_eq. Qed.

(** ** Reducing fractions *)
Definition p_reduce (n d : Z) : ratio :=
  let g := Z.gcd n d in
  if (Z.quot d g <? 0)%ZZ then Ratio (0 - Z.quot n g) (0 - Z.quot d g) else Ratio (Z.quot n g) (Z.quot d g).
Lemma gcd_parts n d : d <> 0%ZZ -> exists a b, n = (a * Z.gcd n d)%ZZ /\ d = (b * Z.gcd n d)%ZZ /\ Z.gcd a b = 1%ZZ /\ Z.gcd n d <> 0%ZZ /\
  Z.quot n (Z.gcd n d) = a /\ Z.quot d (Z.gcd n d) = b /\ b <> 0%ZZ.
Proof.
move=> Hd. have G0 : Z.gcd n d <> 0%ZZ by move=> /Z.gcd_eq_0_r.
have [a Ea] := Z.gcd_divide_l n d. have [b Eb] := Z.gcd_divide_r n d.
have Qa : Z.quot n (Z.gcd n d) = a by rewrite {1}Ea Z.quot_mul.
have Qb : Z.quot d (Z.gcd n d) = b by rewrite {1}Eb Z.quot_mul.
exists a, b. do ! split => //.
- have Da : Z.div n (Z.gcd n d) = a by rewrite {1}Ea Z.div_mul.
  have Db : Z.div d (Z.gcd n d) = b by rewrite {1}Eb Z.div_mul.
  have := Z.gcd_div_gcd n d (Z.gcd n d) G0 erefl. by rewrite Da Db.
- move=> E. apply: Hd. rewrite Eb E. lia.
Qed.
Lemma p_reduce_ok n d : d <> 0%ZZ -> lowest (p_reduce n d) /\ value (p_reduce n d) = zrat n / zrat d.
Proof.
move=> Hd. have [a [b [En [Ed [G1 [G0 [Qn [Qd Hb]]]]]]]] := gcd_parts n Hd. rewrite /p_reduce Qn Qd.
have V : zrat n / zrat d = zrat a / zrat b.
  have -> : zrat n = zrat a * zrat (Z.gcd n d) by rewrite -zrat_mul -En.
  have -> : zrat d = zrat b * zrat (Z.gcd n d) by rewrite -zrat_mul -Ed.
  rewrite invfM mulrACA divff ?mulr1 //. exact: zrat_neq0.
rewrite V. case: Z.ltb_spec => H; rewrite /lowest /value /=.
- split; first by split; [lia|rewrite Z.gcd_opp_l Z.gcd_opp_r].
  by rewrite !zrat_opp invrN mulrNN.
- split=> //. split=> //. lia.
Qed.
Lemma den0 x : lowest x -> denom x <> 0%ZZ.
Proof. move=> [H _]. lia. Qed.

(** ** The operators of Ratio<BigInt> *)
Section Ops.
Variable S : Type.
Implicit Types (s : S).
Lemma big_new n d s : d <> 0%ZZ -> r_new (S := S) bigint_ops (fun a b => ret (Z.gcd a b)) n d s = (Ok (p_reduce n d), s).
Proof.
move=> Hd. rewrite /r_new /=. case: Z.eqb_spec => // _. rewrite /r_reduce /bind /ret /=.
have [a [b [_ [_ [_ [G0 _]]]]]] := gcd_parts n Hd. case: (Z.eqb_spec (Z.gcd n d) 0) => // _. cbv beta. rewrite /p_reduce /=. by destruct (_ <? _)%ZZ.
Qed.
Lemma big_new0 n s : r_new (S := S) bigint_ops (fun a b => ret (Z.gcd a b)) n 0 s = (Panic, s).
Proof. by []. Qed.
End Ops.
(** The exact rationals as an element type whose division panics on zero. *)
Definition rat_ops : ops unit rat :=
  Ops 0 1 (fun x y => ret (x + y)) (fun x y => ret (x - y)) (fun x y => ret (x * y))
    (fun x y => if y == 0 then panic else ret (x / y)) (fun x => ret (- x)) (fun x => x == 0) ret.
Lemma rat_ops_exact : exact_field rat_ops.
Proof. split=> //=. move=> x y s H. by rewrite (negbTE H). Qed.
Definition repr (x : ratio) (q : rat) : Prop := lowest x /\ value x = q.
Definition any {A B : Type} (_ : A) (_ : B) : Prop := True.
Section Alike.
Variable S : Type.
Lemma repr_alike n d q : d <> 0%ZZ -> zrat n / zrat d = q ->
  alike (@any S unit) repr (r_new (S := S) bigint_ops (fun a b => ret (Z.gcd a b)) n d) (ret q).
Proof. move=> Hd E s t _. rewrite big_new //=. have [L V] := p_reduce_ok n Hd. split=> //. split=> //. by rewrite V. Qed.
Lemma ratio_alike : ops_alike any repr (@big_ratio S) rat_ops.
Proof.
have M : forall x y, lowest x -> lowest y -> (RatioM.denom x * denom y)%ZZ <> 0%ZZ by move=> x y /den0 H1 /den0 H2; nia.
split; [split|..].
- by split; [split|rewrite /value /= mul0r].
- by split; [split|rewrite /value /= divr1].
- move=> x q y r [Lx Vx] [Ly Vy]. apply: (repr_alike (M _ _ Lx Ly)).
  rewrite zrat_add !zrat_mul. move: (den0 Lx) (den0 Ly) => /zrat_neq0 Hx /zrat_neq0 Hy.
  by rewrite -Vx -Vy /value addf_div // [zrat (denom x) * zrat (numer y)]mulrC.
- move=> x q y r [Lx Vx] [Ly Vy]. apply: (repr_alike (M _ _ Lx Ly)).
  rewrite zrat_sub !zrat_mul. move: (den0 Lx) (den0 Ly) => /zrat_neq0 Hx /zrat_neq0 Hy.
  by rewrite -Vx -Vy /value -[- (zrat (numer y) / _)]mulNr addf_div // mulNr [zrat (numer y) * _]mulrC.
- move=> x q y r [Lx Vx] [Ly Vy]. apply: (repr_alike (M _ _ Lx Ly)).
  by rewrite !zrat_mul -mulf_div -Vx -Vy.
- move=> x q [[L1 L2] V] s t _. split=> //=. split; first by split=> //=; rewrite Z.gcd_opp_l.
  by rewrite /value /= zrat_opp mulNr -V.
- by move=> [n d] q HR s t _.
- move=> x q y r [Lx Vx] [Ly Vy]. rewrite /= -Vy /value mulf_eq0 invr_eq0 (negbTE (zrat_neq0 (den0 Ly))) orbF zrat_eq0.
  case: Z.eqb_spec => [E|E]; first by move=> s t _; rewrite /r_div /bind /ret /= E Z.mul_0_r.
  apply: repr_alike; first by move: (den0 Lx); nia.
  by rewrite !zrat_mul -Vx /value invf_div mulf_div.
- move=> x q [L V] /=. rewrite -V /value mulf_eq0 invr_eq0 (negbTE (zrat_neq0 (den0 L))) orbF. by rewrite zrat_eq0.
Qed.
End Alike.

(** ** The operators as total functions; overflow checks only add panics *)
Definition p_ratio : arith ratio :=
  Arith (Ratio 0 1) (Ratio 1 1)
    (fun x y => p_reduce (numer x * denom y + denom x * numer y) (denom x * denom y))
    (fun x y => p_reduce (numer x * denom y - denom x * numer y) (denom x * denom y))
    (fun x y => p_reduce (numer x * numer y) (denom x * denom y))
    (fun x => Ratio (- numer x) (denom x)).
Definition p_rdiv (x y : ratio) : ratio := p_reduce (numer x * denom y) (denom x * numer y).
Definition p_rzero (x : ratio) : bool := (numer x =? 0)%ZZ.
Section Checked.
Variable S : Type.
Definition sim_e {X} (m : M S X) (x : X) : Prop := sim true eq m x.
Lemma e_chk t z : sim_e (chk true t z) z.
Proof. move=> s. rewrite /chk. case: (_ && _); [left; by exists z|right; split=> //; by exists s]. Qed.
Lemma e_bind {X Y} (m : M S X) x (k : X -> M S Y) y : sim_e m x -> sim_e (k x) y -> sim_e (bind m k) y.
Proof.
move=> Hm Hk s. rewrite /bind. case: (Hm s) => [[a [-> ->]]|[_ [s' ->]]]; [exact: Hk|right; split=> //; by exists s'].
Qed.
Lemma e_ret {X} (x : X) : sim_e (ret x) x.
Proof. move=> s. left. by exists x. Qed.
Lemma e_panic {X} (x : X) : sim_e (@panic S X) x.
Proof. move=> s. right. split=> //. by exists s. Qed.
Lemma e_idiv t x y : sim_e (int_div t x y) (Z.quot x y).
Proof. rewrite /int_div. case: (y =? 0)%ZZ; first exact: e_panic. cbv zeta. case: (_ && _); [exact: e_ret|exact: e_panic]. Qed.
Lemma e_bdiv x y : sim_e (o_div bigint_ops x y) (Z.quot x y).
Proof. rewrite /=. case: (y =? 0)%ZZ; [exact: e_panic|exact: e_ret]. Qed.
(** Integer types whose operators are exact or panic. *)
Record e_int (io : ops S Z) (gcd : Z -> Z -> M S Z) : Prop := EInt {
  ei_zero : o_zero io = 0%ZZ; ei_one : o_one io = 1%ZZ;
  ei_add : forall x y, sim_e (o_add io x y) (x + y)%ZZ; ei_sub : forall x y, sim_e (o_sub io x y) (x - y)%ZZ;
  ei_mul : forall x y, sim_e (o_mul io x y) (x * y)%ZZ; ei_div : forall x y, sim_e (o_div io x y) (Z.quot x y);
  ei_neg : forall x, sim_e (o_neg io x) (- x)%ZZ; ei_is_zero : forall x, o_is_zero io x = (x =? 0)%ZZ;
  ei_clone : forall x, o_clone io x = ret x; ei_gcd : forall x y, sim_e (gcd x y) (Z.gcd x y) }.
Lemma ei_big : e_int bigint_ops (fun a b => ret (Z.gcd a b)).
Proof. by split=> //= *; try exact: e_ret; exact: e_bdiv. Qed.
Lemma ei_checked t : e_int (int_ops true t) (fun a b => chk true t (Z.gcd a b)).
Proof. by split=> //= *; try exact: e_chk; exact: e_idiv. Qed.
Variables (io : ops S Z) (gcd : Z -> Z -> M S Z).
Hypothesis HI : e_int io gcd.
Lemma e_new n d : sim_e (r_new io gcd n d) (p_reduce n d).
Proof.
rewrite /r_new (ei_is_zero HI). case: (d =? 0)%ZZ; first exact: e_panic. rewrite /r_reduce.
apply: e_bind; first exact: (ei_gcd HI). apply: e_bind; first exact: (ei_div HI). apply: e_bind; first exact: (ei_div HI).
rewrite /p_reduce. destruct (_ <? _)%ZZ; last exact: e_ret. rewrite (ei_zero HI).
apply: e_bind; first exact: (ei_sub HI). apply: e_bind; first exact: (ei_sub HI). exact: e_ret.
Qed.
Lemma e_ratio : sim_ring true eq (ratio_ops io gcd) p_ratio.
Proof.
split; [split|..] => /=.
- by rewrite (ei_zero HI) (ei_one HI).
- by rewrite (ei_one HI).
- move=> x y _ _ <- <-. do 2 (apply: e_bind; first exact: (ei_mul HI)). apply: e_bind; first exact: (ei_add HI).
  apply: e_bind; first exact: (ei_mul HI). exact: e_new.
- move=> x y _ _ <- <-. do 2 (apply: e_bind; first exact: (ei_mul HI)). exact: e_new.
- move=> [n d] s /=. by rewrite !(ei_clone HI).
- move=> x y _ _ <- <-. do 2 (apply: e_bind; first exact: (ei_mul HI)). apply: e_bind; first exact: (ei_sub HI).
  apply: e_bind; first exact: (ei_mul HI). exact: e_new.
- move=> x _ <-. apply: e_bind; first exact: (ei_neg HI). exact: e_ret.
Qed.
Lemma e_rdiv x y : sim true eq (o_div (ratio_ops io gcd) x y) (p_rdiv x y).
Proof. rewrite /=. do 2 (apply: e_bind; first exact: (ei_mul HI)). exact: e_new. Qed.
Lemma e_rzero x : o_is_zero (ratio_ops io gcd) x = p_rzero x.
Proof. exact: (ei_is_zero HI). Qed.
End Checked.

(** ** Transfer *)
(** Ratio<BigInt> returns [x]; Ratio<iN> with overflow checks returns the same or panics. *)
Definition exact_result {S X} (t : ity) (f : ops S ratio -> M S X) (s : S) (x : X) : Prop :=
  f big_ratio s = (Ok x, s) /\
  (f (checked_ratio t) s = (Ok x, s) \/ exists s', f (checked_ratio t) s = (Panic, s')).
Section Transfer.
Variables (S : Type) (c : cfg) (d : ety S ratio).
Definition dq : ety unit rat := Ety (fun _ s => s) (e_copy d).
Lemma dq_alike : ety_alike any repr d dq. Proof. by []. Qed.
Lemma transfer {X Y} (Q : X -> Y -> Prop) t (f : ops S ratio -> M S X) (g : M unit Y) x y s :
  (forall io gcd, e_int io gcd -> sim true eq (f (ratio_ops io gcd)) x) ->
  alike (@any S unit) Q (f big_ratio) g -> g Datatypes.tt = (Ok y, Datatypes.tt) ->
  exact_result t f s x /\ Q x y.
Proof.
move=> Hs Ha Hg. have [HQ _] := Ha s Datatypes.tt I. rewrite Hg /= in HQ.
have E : f big_ratio s = (Ok x, s) /\ Q x y.
  case: (Hs _ _ (ei_big S) s) => [[a [E Ea]]|[_ [s' E]]]; rewrite /big_ratio E /= in HQ *; by [rewrite -Ea|].
split; last by case: E. split; first by case: E.
case: (Hs _ _ (ei_checked S t) s) => [[a [Ec <-]]|[_ [s' Ec]]]; [by left|right; by exists s'].
Qed.
Lemma rel_row v : Forall lowest v -> Forall2 repr v (map value v).
Proof. by elim=> //= *; constructor. Qed.
Lemma rel_values m : all_lowest m -> Forall2 (Forall2 repr) m (values m).
Proof. elim=> //= r r' H A IH. constructor=> //. exact: rel_row. Qed.
Lemma rect_values row col m : rect row col m -> rect row col (values m).
Proof. move=> [L F]. split; first by rewrite map_length. elim: F => //= r r' H F IH. constructor=> //. by rewrite map_length. Qed.
Lemma repr_row v w : Forall2 repr v w -> Forall lowest v /\ map value v = w.
Proof. elim=> [|x q v' w' [L V] _ [H1 H2]] /=; first by split. split; [by constructor|by rewrite V H2]. Qed.
Lemma repr_mat v w : Forall2 (Forall2 repr) v w -> all_lowest v /\ values v = w.
Proof. elim=> [|x q v' w' /repr_row[L V] _ [H1 H2]] /=; first by split. split; [by constructor|by rewrite V H2]. Qed.
End Transfer.
Local Notation QA := (ring_arith [ringType of rat]).

(** ** C100 *)
Theorem C100_determinant :
  forall (S : Type) (c : cfg) (d : ety S ratio) t n m (s : S),
  (0 < n)%N -> (2 * n <= W c)%N -> rect n n m -> all_lowest m ->
  exists r, exact_result t (fun o => det c d o n m) s r /\ lowest r /\ value r = \det (mx_of n (values m)).
Proof.
move=> S c d t n m s Hn HW Rm Lm. exists (p_det p_ratio p_rdiv p_rzero n m).
apply: (@transfer _ _ _ repr _ _ (det c (dq d) rat_ops n (values m))).
- move=> io gcd HI. apply: det_s => //; [exact: e_ratio|by move=> x y _; exact: (e_rdiv HI)|exact: (e_rzero HI)|exact/leP|]. move/leP: HW. nlia.
- apply: (r_det any c repr d (dq d) _ _ (dq_alike d) (ratio_alike S) (oa_ring _ _ _ _ (ratio_alike S))). exact: rel_values.
- apply: C43_determinant => //; [exact: rat_ops_exact|exact: rect_values].
Qed.
Print Assumptions C100_determinant.
Theorem C100_cofactor :
  forall (S : Type) (c : cfg) (d : ety S ratio) t n m i j (s : S),
  (1 < n)%N -> (2 * n <= W c)%N -> rect n n m -> all_lowest m -> (i < n)%N -> (j < n)%N ->
  exists r, exact_result t (fun o => OpsM.cofactor c d o n m (i, j)) s r /\ lowest r /\
    value r = (-1) ^+ (i + j) * \det (mx_of (n - 1) (minor i j (values m))).
Proof.
move=> S c d t n m i j s Hn HW Rm Lm Hi Hj. exists (p_cof p_ratio p_rdiv p_rzero n m i j).
apply: (@transfer _ _ _ repr _ _ (OpsM.cofactor c (dq d) rat_ops n (values m) (i, j))).
- move=> io gcd HI. apply: cofactor_s => //; [exact: e_ratio|exact: (e_rdiv HI)|exact: (e_rzero HI)|exact/leP| |exact/ltP|exact/ltP]. move/leP: HW. nlia.
- apply: (r_cofactor any c repr d (dq d) _ _ (dq_alike d) (ratio_alike S) (oa_ring _ _ _ _ (ratio_alike S))). exact: rel_values.
- apply: C46_cofactor => //; [exact: rat_ops_exact|exact: rect_values].
Qed.
Print Assumptions C100_cofactor.

Lemma inverse_transfer (S : Type) (c : cfg) (d : ety S ratio) t n m (s : S) y : (0 < n)%N -> rect n n m -> all_lowest m ->
  inverse c (dq d) rat_ops n (values m) Datatypes.tt = (Ok y, Datatypes.tt) ->
  exists x, exact_result t (fun o => inverse c d o n m) s x /\ opt_rel (Forall2 (Forall2 repr)) x y.
Proof.
move=> Hn Rm Lm E. exists (p_inverse p_ratio p_rdiv p_rzero n m).
apply: (@transfer _ _ _ _ _ _ (inverse c (dq d) rat_ops n (values m))) E.
- move=> io gcd HI. apply: inverse_s => //; [exact: e_ratio|exact: (e_rdiv HI)|exact: (e_rzero HI)|exact/leP].
- apply: (r_inverse any c repr d (dq d) _ _ (dq_alike d) (ratio_alike S) (oa_ring _ _ _ _ (ratio_alike S))). exact: rel_values.
Qed.
Lemma inverse_some (S : Type) (c : cfg) (d : ety S ratio) t n m (s : S) y : (0 < n)%N -> rect n n m -> all_lowest m ->
  inverse c (dq d) rat_ops n (values m) Datatypes.tt = (Ok (Some y), Datatypes.tt) -> is_inverse n (values m) y ->
  exists x, exact_result t (fun o => inverse c d o n m) s (Some x) /\ all_lowest x /\ is_inverse n (values m) (values x).
Proof.
move=> Hn Rm Lm E Iy. have [[x|] [H1 H2]] := inverse_transfer t s Hn Rm Lm E; last by [].
exists x. have [L V] := repr_mat H2. split=> //. split=> //. by rewrite V.
Qed.
Lemma inverse_none (S : Type) (c : cfg) (d : ety S ratio) t n m (s : S) : (0 < n)%N -> rect n n m -> all_lowest m ->
  inverse c (dq d) rat_ops n (values m) Datatypes.tt = (Ok None, Datatypes.tt) -> exact_result t (fun o => inverse c d o n m) s None.
Proof. move=> Hn Rm Lm E. by have [[x|] [H1 H2]] := inverse_transfer t s Hn Rm Lm E. Qed.
(** Up to 3 x 3: the exact inverse exactly for an invertible matrix. *)
Theorem C100_inverse_small :
  forall (S : Type) (c : cfg) (d : ety S ratio) t n m (s : S),
  (1 <= n <= 3)%N -> rect n n m -> all_lowest m ->
  (\det (mx_of n (values m)) != 0 ->
     exists x, exact_result t (fun o => inverse c d o n m) s (Some x) /\ all_lowest x /\ is_inverse n (values m) (values x)) /\
  (\det (mx_of n (values m)) = 0 -> exact_result t (fun o => inverse c d o n m) s None).
Proof.
move=> S c d t n m s Hn Rm Lm. have [H1 H2] := C47_inverse_small c (dq d) rat_ops_exact Datatypes.tt Hn (rect_values Rm).
have Hn0 : (0 < n)%N by case/andP: Hn. split.
- move=> /H1 [x [E I]]. exact: inverse_some E I.
- move=> /H2. exact: inverse_none.
Qed.
Print Assumptions C100_inverse_small.
(** From 4 x 4: the exact inverse when every leading block is invertible, otherwise [None] (no pivoting, C49). *)
Theorem C100_inverse_big :
  forall (S : Type) (c : cfg) (d : ety S ratio) t n m (s : S),
  (4 <= n)%N -> rect n n m -> all_lowest m ->
  ((forall k, (1 <= k <= n)%N -> \det (mx_of k (values m)) != 0) ->
     exists x, exact_result t (fun o => inverse c d o n m) s (Some x) /\ all_lowest x /\ is_inverse n (values m) (values x)) /\
  ((exists k, (1 <= k <= n)%N /\ \det (mx_of k (values m)) = 0) -> exact_result t (fun o => inverse c d o n m) s None).
Proof.
move=> S c d t n m s Hn Rm Lm. have Hn0 : (0 < n)%N by case: n Hn {Rm}.
have [H1 H2] := C50_some_iff_leading_minors c (dq d) rat_ops_exact Datatypes.tt Hn (rect_values Rm).
have HS := C48_inverse_big_sound c (dq d) rat_ops_exact Datatypes.tt Hn (rect_values Rm). split.
- move=> /H2 [x E]. case: HS => [[y [E' I]]|E']; last by rewrite E' in E. exact: inverse_some E' I.
- move=> [k [Hk E0]]. case: HS => [[y [E' I]]|E']; last exact: inverse_none.
  have := H1 (ex_intro _ y E') k Hk. by rewrite E0 eqxx.
Qed.
Print Assumptions C100_inverse_big.

(** The other operations. *)
Lemma f2_eq1 {A} (l : list A) : Forall2 eq l l. Proof. by elim: l => //= *; constructor. Qed.
Lemma f2_eq2 {A} (l : list (list A)) : Forall2 (Forall2 eq) l l. Proof. elim: l => //= *; constructor=> //. exact: f2_eq1. Qed.
Lemma e_vec {S A} (m : M S (list A)) x : sim true (Forall2 eq) m x -> sim true eq m x.
Proof. apply: sim_weaken => a. exact: Forall2_eq_inv. Qed.
Lemma e_mat {S A} (m : M S (list (list A))) x : sim true (Forall2 (Forall2 eq)) m x -> sim true eq m x.
Proof. apply: sim_weaken => a. elim=> // r r' v w /Forall2_eq_inv -> _ ->. by []. Qed.
Lemma subm_ok (S : Type) (T : Type) (c : cfg) (d : ety S T) (o : ops S T) (A : arith T) row col a b s : exact o A -> rect row col a -> rect row col b -> (row < W c)%coq_nat -> (col < W c)%coq_nat ->
  mzip_vv c d d d row col (o_sub o) a b s = (Ok (m_sub A row col a b), s).
Proof.
move=> E Ra Rb H1 H2. apply: sim_eqm. apply: sim_mzip_vv => //; try exact: f2_eq2. move=> x y _ _ <- <- s'. left. exists (a_sub A x y). split=> //. exact: (ex_sub _ _ E).
Qed.
Lemma prod_ok (S : Type) (c : cfg) (d : ety S ratio) t l n r a b (s : S) :
  (l < W c)%coq_nat -> (n < W c)%coq_nat -> (r < W c)%coq_nat -> rect l n a -> rect n r b -> all_lowest a -> all_lowest b ->
  exists p, exact_result t (fun o => mmul_vv c d o l n r a b) s p /\ all_lowest p /\ values p = m_mul QA l n r (values a) (values b).
Proof.
move=> Hl Hn Hr Ra Rb La Lb. have HO := oa_ring _ _ _ _ (ratio_alike S).
have E1 := ex_semi _ _ (xf_ring rat_ops_exact). have Va := rect_values Ra. have Vb := rect_values Rb.
exists (m_mul p_ratio l n r a b).
  have [X Y] := @transfer _ _ _ (Forall2 (Forall2 repr)) t (fun o => mmul_vv c d o l n r a b) (mmul_vv c (dq d) rat_ops l n r (values a) (values b)) _ _ s
    (fun io gcd HI => e_mat (sim_mmul_vv _ _ c d _ _ (sm_semi _ _ _ _ (e_ratio HI)) l n r a b a b (f2_eq2 a) (f2_eq2 b) Ra Rb Hl Hn Hr))
    (r_mmul_vv any c repr d (dq d) _ _ (dq_alike d) HO l n r _ _ _ _ (rel_values La) (rel_values Lb))
    (mulm c (dq d) rat_ops QA E1 l n r _ _ Datatypes.tt Va Vb Hl Hn Hr).
  by have [L V] := repr_mat Y.
Qed.
Theorem C100_arith :
  forall (S : Type) (c : cfg) (d : ety S ratio) t l n r a b a' v w (s : S),
  (l < W c)%N -> (n < W c)%N -> (r < W c)%N -> rect l n a -> rect l n a' -> rect n r b -> length v = n -> length w = n ->
  all_lowest a -> all_lowest a' -> all_lowest b -> Forall lowest v -> Forall lowest w ->
  (exists p, exact_result t (fun o => mmul_vv c d o l n r a b) s p /\ all_lowest p /\ values p = m_mul QA l n r (values a) (values b)) /\
  (exists p, exact_result t (fun o => mmulv c d o l n a v) s p /\ Forall lowest p /\ map value p = m_mulv QA l n (values a) (map value v)) /\
  (exists p, exact_result t (fun o => vdot o n v w) s p /\ lowest p /\ value p = v_dot QA n (map value v) (map value w)) /\
  (exists p, exact_result t (fun o => mzip_vv c d d d l n (o_add o) a a') s p /\ all_lowest p /\ values p = m_add QA l n (values a) (values a')) /\
  (exists p, exact_result t (fun o => mzip_vv c d d d l n (o_sub o) a a') s p /\ all_lowest p /\ values p = m_sub QA l n (values a) (values a')).
Proof.
move=> S c d t l n r a b a' v w s /ltP Hl /ltP Hn /ltP Hr Ra Ra' Rb Lv Lw La La' Lb Fv Fw.
have HA := ratio_alike S. have HO := oa_ring _ _ _ _ HA.
have E : exact rat_ops QA := xf_ring rat_ops_exact. have E1 := ex_semi _ _ E.
have [Va Va'] := (rect_values Ra, rect_values Ra'). have Vb := rect_values Rb.
have Lv' : length (map value v) = n by rewrite map_length. have Lw' : length (map value w) = n by rewrite map_length.
split; [|split; [|split; [|split]]].
- exact: prod_ok.
- exists (m_mulv p_ratio l n a v).
  have [X Y] := @transfer _ _ _ (Forall2 repr) t (fun o => mmulv c d o l n a v) (mmulv c (dq d) rat_ops l n (values a) (map value v)) _ _ s
    (fun io gcd HI => e_vec (sim_mmulv _ _ c d _ _ (sm_semi _ _ _ _ (e_ratio HI)) l n a a v v (f2_eq2 a) (f2_eq1 v) Ra Lv Hl))
    (r_mmulv any c repr d (dq d) _ _ (dq_alike d) HO l n _ _ _ _ (rel_values La) (rel_row Fv))
    (mulmv c (dq d) rat_ops QA E1 l n _ _ Datatypes.tt Va Lv' Hl Hn).
  by have [L V] := repr_row Y.
- exists (v_dot p_ratio n v w).
  by have [X [L V]] := @transfer _ _ _ repr t (fun o => vdot o n v w) (vdot rat_ops n (map value v) (map value w)) _ _ s
    (fun io gcd HI => sim_vdot _ _ _ _ (sm_semi _ _ _ _ (e_ratio HI)) n v v w w (f2_eq1 v) (f2_eq1 w) Lv Lw)
    (r_vdot any repr _ _ HO n _ _ _ _ (rel_row Fv) (rel_row Fw))
    (dotv rat_ops QA E1 n _ _ Datatypes.tt Lv' Lw').
- exists (m_add p_ratio l n a a').
  have [X Y] := @transfer _ _ _ (Forall2 (Forall2 repr)) t (fun o => mzip_vv c d d d l n (o_add o) a a') (mzip_vv c (dq d) (dq d) (dq d) l n (o_add rat_ops) (values a) (values a')) _ _ s
    (fun io gcd HI => e_mat (sim_mzip_vv _ _ c d p_ratio _ _ (sm_add _ _ _ _ (sm_semi _ _ _ _ (e_ratio HI))) l n a a a' a' (f2_eq2 a) (f2_eq2 a') Ra Ra' Hl Hn))
    (r_mzip_vv any c repr repr repr d (dq d) d (dq d) d (dq d) _ _ (dq_alike d) (dq_alike d) (dq_alike d) (ra_add _ _ _ _ HO) l n _ _ _ _ (rel_values La) (rel_values La'))
    (addm c (dq d) rat_ops QA E1 l n _ _ Datatypes.tt Va Va' Hl Hn).
  by have [L V] := repr_mat Y.
- exists (m_sub p_ratio l n a a').
  have [X Y] := @transfer _ _ _ (Forall2 (Forall2 repr)) t (fun o => mzip_vv c d d d l n (o_sub o) a a') (mzip_vv c (dq d) (dq d) (dq d) l n (o_sub rat_ops) (values a) (values a')) _ _ s
    (fun io gcd HI => e_mat (sim_mzip_vv _ _ c d p_ratio _ _ (sm_sub _ _ _ _ (e_ratio HI)) l n a a a' a' (f2_eq2 a) (f2_eq2 a') Ra Ra' Hl Hn))
    (r_mzip_vv any c repr repr repr d (dq d) d (dq d) d (dq d) _ _ (dq_alike d) (dq_alike d) (dq_alike d) (ra_sub _ _ _ _ HO) l n _ _ _ _ (rel_values La) (rel_values La'))
    (subm_ok (dq d) Datatypes.tt E Va Va' Hl Hn).
  by have [L V] := repr_mat Y.
Qed.
Print Assumptions C100_arith.
Lemma QA_semiring : semiring QA.
Proof. split=> /= *; by rewrite ?addrA ?add0r ?mulrA ?mul1r ?mulr1 ?mul0r ?mulr0 ?mulrDl ?mulrDr //; rewrite addrC. Qed.
Theorem C100_pow :
  forall (S : Type) (c : cfg) (d : ety S ratio) t n m e (s : S), (n < W c)%N -> rect n n m -> all_lowest m ->
  exists p, exact_result t (fun o => mpow c d o n m e) s p /\ all_lowest p /\ values p = m_pow QA n (values m) e.
Proof.
move=> S c d t n m e s /ltP Hn Rm Lm. have HO := oa_ring _ _ _ _ (ratio_alike S). have E1 := ex_semi _ _ (xf_ring rat_ops_exact).
exists (pnum_pow (m_mul p_ratio n n n) (m_id p_ratio n) m e).
have [X Y] := @transfer _ _ _ (Forall2 (Forall2 repr)) t (fun o => mpow c d o n m e) (mpow c (dq d) rat_ops n (values m) e) _ _ s
  (fun io gcd HI => e_mat (sim_mpow _ _ c d _ _ (sm_semi _ _ _ _ (e_ratio HI)) n m m e (f2_eq2 m) Rm Hn))
  (r_mpow any c repr d (dq d) _ _ (dq_alike d) HO n _ _ e (rel_values Lm))
  (C41_pow _ _ c (dq d) rat_ops QA n _ e Datatypes.tt E1 QA_semiring (rect_values Rm) Hn).
by have [L V] := repr_mat Y.
Qed.
Print Assumptions C100_pow.

(** A fraction in lowest terms is determined by its value. *)
Lemma val_num x : lowest x -> zrat (numer x) = value x * zrat (denom x).
Proof. move=> /den0/zrat_neq0 H. by rewrite /value divfK. Qed.
Lemma zrat_inj x y : zrat x = zrat y -> x = y.
Proof.
move=> E. have : zrat (x - y) == 0 by rewrite zrat_sub E subrr. rewrite zrat_eq0 => /Z.eqb_eq. lia.
Qed.
Theorem C100_lowest_unique : forall x y, lowest x -> lowest y -> value x = value y -> x = y.
Proof.
move=> [a b] [a' b'] Lx Ly E. have [/= Hb G] := Lx. have [/= Hb' G'] := Ly.
have Q : (a * b' = a' * b)%ZZ.
  apply: zrat_inj. rewrite !zrat_mul (val_num Lx) (val_num Ly) E /=. by rewrite -!mulrA [zrat b * _]mulrC.
have D1 : Z.divide b b'.
  apply: (Z.gauss b a b'); first by exists a'. by rewrite Z.gcd_comm.
have D2 : Z.divide b' b.
  apply: (Z.gauss b' a' b); first by exists a; rewrite Q. by rewrite Z.gcd_comm.
have Eb : b = b' by apply: Z.divide_antisym_nonneg => //; lia.
subst b'. f_equal. nia.
Qed.
Print Assumptions C100_lowest_unique.
Lemma unique_row r r' : Forall lowest r -> Forall lowest r' -> map value r = map value r' -> r = r'.
Proof.
elim: r r' => [|x r IH] [|y r'] //= L1 L2 [Ex Er]. have Hx := Forall_inv L1. have Hy := Forall_inv L2.
by rewrite (C100_lowest_unique Hx Hy Ex) (IH r' (Forall_inv_tail L1) (Forall_inv_tail L2) Er).
Qed.
Lemma unique_mat a b : all_lowest a -> all_lowest b -> values a = values b -> a = b.
Proof.
elim: a b => [|r a IH] [|r' b] //= La Lb [E1 E2].
by rewrite (unique_row (Forall_inv La) (Forall_inv Lb) E1) (IH b (Forall_inv_tail La) (Forall_inv_tail Lb) E2).
Qed.
Lemma inverse_total (c : cfg) (dd : ety unit rat) n (m : list (list rat)) : (0 < n)%N -> rect n n m ->
  (exists y, inverse c dd rat_ops n m Datatypes.tt = (Ok (Some y), Datatypes.tt) /\ is_inverse n m y) \/
  inverse c dd rat_ops n m Datatypes.tt = (Ok None, Datatypes.tt).
Proof.
move=> Hn Rm. case: (leqP n 3) => H; last exact: (C48_inverse_big_sound c dd rat_ops_exact Datatypes.tt H Rm).
have H13 : (1 <= n <= 3)%N by rewrite Hn H. have [H1 H2] := C47_inverse_small c dd rat_ops_exact Datatypes.tt H13 Rm.
case: (eqVneq (\det (mx_of n m)) 0) => [/H2|/H1]; by [right|left].
Qed.
Lemma lowest_id n : all_lowest (m_id p_ratio n) /\ values (m_id p_ratio n) = m_id QA n.
Proof.
split; rewrite /m_id /mat /vec.
- apply/Forall_forall => r /in_map_iff[i [<- _]]. apply/Forall_forall => x /in_map_iff[j [<- _]]. rewrite /=. by case: (Nat.eqb _ _).
- rewrite /values map_map. apply: map_ext => i. rewrite map_map. apply: map_ext => j. case: (Nat.eqb _ _); by rewrite /value /= ?mul0r ?divr1.
Qed.
Lemma rect_of_values row col m : rect row col (values m) -> rect row col m.
Proof.
move=> [L F]. split; first by move: L; rewrite map_length. move: F {L}. elim: m => [|r m IH] F; first by constructor.
constructor; [by move: (Forall_inv F); rewrite map_length|exact: IH (Forall_inv_tail F)].
Qed.
(** An inverse that is returned multiplies with the original to the identity, as data. *)
Theorem C100_roundtrip :
  forall (S : Type) (c : cfg) (d : ety S ratio) n m x (s : S),
  (0 < n)%N -> (n < W c)%N -> rect n n m -> all_lowest m ->
  inverse c d big_ratio n m s = (Ok (Some x), s) ->
  mmul_vv c d big_ratio n n n m x s = midentity c d big_ratio n s /\
  mmul_vv c d big_ratio n n n x m s = midentity c d big_ratio n s.
Proof.
move=> S c d n m x s Hn HW Rm Lm E. have t : ity := u64.
have [x' [[E' _] HI]] : exists x', exact_result t (fun o => inverse c d o n m) s x' /\
    match x' with Some x => rect n n x /\ all_lowest x /\ is_inverse n (values m) (values x) | None => True end.
  case: (inverse_total c (dq d) Hn (rect_values Rm)) => [[y [Ey Iy]]|Ey].
  - have [x0 [H1 [H2 H3]]] := inverse_some t s Hn Rm Lm Ey Iy. exists (Some x0). split=> //. split=> //.
    case: (H3) => [R0 _]. exact: rect_of_values.
  - exists None. by split=> //; exact: inverse_none.
rewrite E in E'. case: E' HI => <- [Rx [Lx [_ [I1 I2]]]].
have Id : midentity c d big_ratio n s = (Ok (m_id p_ratio n), s).
  unfold midentity. rewrite (mgenerate_pure _ _ _ _ _ (fun i j => if Nat.eqb i j then o_one (@big_ratio S) else o_zero (@big_ratio S))) //.
  move=> i j s0 _ _. by case: (Nat.eqb i j).
have [Lid Vid] := lowest_id n. move/ltP: HW => HW. split.
- have [p [[Ep _] [Lp Vp]]] := prod_ok d t s HW HW HW Rm Rx Lm Lx. by rewrite Ep Id (unique_mat Lp Lid) // Vp Vid.
- have [p [[Ep _] [Lp Vp]]] := prod_ok d t s HW HW HW Rx Rm Lx Lm. by rewrite Ep Id (unique_mat Lp Lid) // Vp Vid.
Qed.
Print Assumptions C100_roundtrip.
Lemma inverse_big_eq (S : Type) (c : cfg) (d : ety S ratio) n m (s : S) : (0 < n)%N -> rect n n m -> all_lowest m ->
  inverse c d big_ratio n m s = (Ok (p_inverse p_ratio p_rdiv p_rzero n m), s).
Proof.
move=> Hn Rm Lm. have E : exists x, inverse c d big_ratio n m s = (Ok x, s).
  case: (inverse_total c (dq d) Hn (rect_values Rm)) => [[y [Ey _]]|Ey]; have [x [[H _] _]] := inverse_transfer u64 s Hn Rm Lm Ey; by exists x.
case: E => x E. have := @inverse_s S ratio p_ratio p_rdiv p_rzero true c d big_ratio (e_ratio (ei_big S)) (e_rdiv (ei_big S)) (e_rzero (ei_big S)) n m.
move=> /(_ (elimT leP Hn) Rm s). rewrite E. by case=> [[a [[->] ->]]|[_ [s' ]]].
Qed.

(** A 2 x 2 matrix of fractions: determinant 1/60, inverse [[12, -20], [-15, 30]]; Ratio<i32> gives the same.
    And entries for which Ratio<i8> overflows while Ratio<BigInt> does not. *)
Definition m100 : list (list ratio) := [:: [:: Ratio 1 2; Ratio 1 3]; [:: Ratio 1 4; Ratio 1 5]].
Definition w100 : list (list ratio) := [:: [:: Ratio 1 16; Ratio 0 1]; [:: Ratio 0 1; Ratio 1 16]].
Definition ity_n (n : positive) : ity := @Ity true (Zpos n) Logic.eq_refl.
Definition ity32 : ity := ity_n 32.
Definition ity8 : ity := ity_n 8.
Example C100_ex : forall (c : cfg) (d : ety unit ratio),
  rect 2 2 m100 /\ all_lowest m100 /\ all_lowest w100 /\
  det c d big_ratio 2 m100 Datatypes.tt = (Ok (Ratio 1 60), Datatypes.tt) /\
  det c d (checked_ratio ity32) 2 m100 Datatypes.tt = (Ok (Ratio 1 60), Datatypes.tt) /\
  inverse c d big_ratio 2 m100 Datatypes.tt = (Ok (Some [:: [:: Ratio 12 1; Ratio (-20) 1]; [:: Ratio (-15) 1; Ratio 30 1]]), Datatypes.tt) /\
  det c d big_ratio 2 w100 Datatypes.tt = (Ok (Ratio 1 256), Datatypes.tt) /\
  det c d (checked_ratio ity8) 2 w100 Datatypes.tt = (Panic, Datatypes.tt).
Proof.
move=> [b w Hw p] d. split; first by split=> //; repeat constructor. split; first by repeat constructor. split; first by repeat constructor.
split; first by case: b; vm_compute. split; first by case: b; vm_compute. split; last by split; case: b; vm_compute.
rewrite inverse_big_eq; [by vm_compute|by []|by split=> //; repeat constructor|by repeat constructor].
Qed.
