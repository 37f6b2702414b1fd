(** * PropsOrder2.v - C70 continued: cross product, sums, norm, and the closed formulas of determinant
    and inverse up to size 3. *)
From Coq Require Import List Arith Bool Lia.
From Verif Require Import Rust Iter Elem VectorM MatIterM MatrixM ArithM OpsM SpecCommon Harness IterProofs OwnProofs VecProofs MatProofs AccProofs Sim DetLoop OpsPure PropsOrder.
Import ListNotations.

(** Expressions in the entries of a matrix.  They are evaluated from left to right: an entry is
    cloned when it is its turn, an operator is applied when both its operands are there. *)
Inductive expr := At (i j : nat) | Plus (a b : expr) | Minus (a b : expr) | Times (a b : expr) | Opp (a : expr).
Fixpoint eval {S T} (o : ops S T) (x : nat -> nat -> T) (e : expr) : M S T :=
  match e with
  | At i j => o_clone o (x i j)
  | Plus a b => u <- eval o x a ;; v <- eval o x b ;; o_add o u v
  | Minus a b => u <- eval o x a ;; v <- eval o x b ;; o_sub o u v
  | Times a b => u <- eval o x a ;; v <- eval o x b ;; o_mul o u v
  | Opp a => u <- eval o x a ;; o_neg o u
  end.
Declare Scope expr_scope.
Notation "a + b" := (Plus a b) : expr_scope.
Notation "a - b" := (Minus a b) : expr_scope.
Notation "a * b" := (Times a b) : expr_scope.
Notation "- a" := (Opp a) : expr_scope.
Delimit Scope expr_scope with expr.
(** Row i of the matrix is the i-th operand vector in [C70_cross], row i of the matrix elsewhere. *)
Definition e_cross : list expr :=
  [At 0 1 * At 1 2 - At 0 2 * At 1 1; At 0 2 * At 1 0 - At 0 0 * At 1 2; At 0 0 * At 1 1 - At 0 1 * At 1 0]%expr.
Definition e_det2 : expr := (At 0 0 * At 1 1 - At 1 0 * At 0 1)%expr.
Definition e_det3 : expr :=
  (At 0 0 * At 1 1 * At 2 2 + At 0 1 * At 1 2 * At 2 0 + At 0 2 * At 1 0 * At 2 1
   - At 0 2 * At 1 1 * At 2 0 - At 0 1 * At 1 0 * At 2 2 - At 0 0 * At 1 2 * At 2 1)%expr.
Definition e_adj2 : list (list expr) := [[At 1 1; - At 0 1]; [- At 1 0; At 0 0]]%expr.
Definition e_adj3 : list (list expr) :=
  [[At 1 1 * At 2 2 - At 1 2 * At 2 1; At 0 2 * At 2 1 - At 0 1 * At 2 2; At 0 1 * At 1 2 - At 0 2 * At 1 1];
   [At 1 2 * At 2 0 - At 1 0 * At 2 2; At 0 0 * At 2 2 - At 0 2 * At 2 0; At 0 2 * At 1 0 - At 0 0 * At 1 2];
   [At 1 0 * At 2 1 - At 1 1 * At 2 0; At 0 1 * At 2 0 - At 0 0 * At 2 1; At 0 0 * At 1 1 - At 0 1 * At 1 0]]%expr.
(** The entries of [m] are the [x i j]. *)
Definition entries {T} n (m : list (list T)) (x : nat -> nat -> T) : Prop := rect n n m /\ forall i j, i < n -> j < n -> entry m i j = Some (x i j).

Section Order.
Context {S T : Type} (c : cfg) (d : ety S T) (o : ops S T).
Lemma idx_run n m x i j s : entries n m x -> i < n -> j < n -> idx c o n m i j s = o_clone o (x i j) s.
Proof. intros [R H] Hi Hj. unfold idx, bind. now rewrite (mstatic_in c n n m i j (x i j) s R Hi Hj (H i j Hi Hj)). Qed.
Lemma vidx_run v (x : nat -> T) i s : length v = 3 -> (forall i, i < 3 -> nth_error v i = Some (x i)) -> i < 3 -> vidx c o v i s = o_clone o (x i) s.
Proof.
  intros L H Hi. destruct v as [|x0 [|x1 [|x2 [|]]]]; try discriminate. pose proof (H i Hi) as E. clear H L.
  unfold vidx, bind, vindex_u0, vindex_uint, vget_unchecked, debug_assert, bind.
  destruct i as [|[|[|]]]; [| | |lia]; injection E as <-; destruct (debug c); reflexivity.
Qed.
End Order.
Ltac split1 t := destruct t as [[?| | |] ?]; cbv beta iota; try reflexivity.
Ltac headof t := lazymatch t with match ?u with pair _ _ => _ end => headof u | _ => t end.
(** One step of the left-hand run: resolve an index, or split on the outcome of an operator. *)
Ltac walk tac :=
  repeat (lazymatch goal with |- ?l = _ => let h := headof l in
    lazymatch h with
    | (_, _) => fail
    | mnew _ _ _ _ _ => fail
    | mscale _ _ _ _ _ _ _ _ _ => fail
    | _ => first [tac | split1 h]
    end end).

Theorem C70_cross : forall S T (c : cfg) (o : ops S T) a b (x : nat -> nat -> T) (s : S),
  length a = 3 -> length b = 3 -> (forall i, i < 3 -> nth_error a i = Some (x 0 i) /\ nth_error b i = Some (x 1 i)) ->
  vcross c o a b s = in_order (eval o x) e_cross s.
Proof.
  intros S T c o a b x s La Lb H.
  unfold vcross, cross_term, e_cross, in_order, eval, bind, vnew, ret.
  assert (Ha : forall i s, i < 3 -> vidx c o a i s = o_clone o (x 0 i) s) by (intros; apply vidx_run; auto; intros; now apply H).
  assert (Hb : forall i s, i < 3 -> vidx c o b i s = o_clone o (x 1 i) s) by (intros; apply vidx_run; auto; intros; now apply H).
  walk ltac:(first [rewrite Ha by lia | rewrite Hb by lia]).
Qed.
Print Assumptions C70_cross.
Theorem C70_determinant : forall S T (c : cfg) (d : ety S T) (o : ops S T) m (x : nat -> nat -> T) (s : S),
  (entries 1 m x -> det c d o 1 m s = eval o x (At 0 0) s) /\
  (entries 2 m x -> det c d o 2 m s = eval o x e_det2 s) /\
  (entries 3 m x -> det c d o 3 m s = eval o x e_det3 s).
Proof.
  intros S T c d o m x s. split; [|split]; intros H; cbn [det].
  - unfold det1. now rewrite (idx_run c o 1 m x 0 0 s H) by lia.
  - unfold det2, e_det2, eval, bind. walk ltac:(rewrite (fun i j s => idx_run c o 2 m x i j s H) by lia).
  - unfold det3, term3, e_det3, eval, bind. walk ltac:(rewrite (fun i j s => idx_run c o 3 m x i j s H) by lia).
Qed.
Print Assumptions C70_determinant.
(** First the determinant; if it is not zero, the entries of the adjugate row by row; then
    [/ determinant], the operator of C18 and C19, which clones it for every row and for every entry. *)
Theorem C70_inverse : forall S T (c : cfg) (d : ety S T) (o : ops S T) m (x : nat -> nat -> T) (s : S),
  let by_adjugate n e_det e_adj :=
    dt <- eval o x e_det ;;
    if o_is_zero o dt then ret None
    else adj <- in_order (fun r => in_order (eval o x) r) e_adj ;;
         q <- mscale c d n n (o_div o) (o_clone o) adj dt ;; ret (Some q) in
  (entries 1 m x -> inverse c d o 1 m s = (e <- eval o x (At 0 0) ;; if o_is_zero o e then ret None else q <- o_div o (o_one o) e ;; ret (Some [[q]])) s) /\
  (entries 2 m x -> inverse c d o 2 m s = by_adjugate 2 e_det2 e_adj2 s) /\
  (entries 3 m x -> inverse c d o 3 m s = by_adjugate 3 e_det3 e_adj3 s).
Proof.
  intros S T c d o m x s by_adjugate. pose proof (W_big c) as HW. split; [|split]; intros H; cbn [inverse].
  - unfold inv1, eval, bind. rewrite (idx_run c o 1 m x 0 0 s H) by lia. split1 (o_clone o (x 0 0) s).
    destruct (o_is_zero o a); [reflexivity|]. cbv beta iota. split1 (o_div o (o_one o) a s0). now rewrite mnew_spec by (reflexivity || lia).
  - destruct (C70_determinant S T c d o m x s) as (_ & D & _). specialize (D H). cbn [det] in D.
    unfold inv2, by_adjugate, bind. rewrite D. split1 (eval o x e_det2 s). destruct (o_is_zero o a); [reflexivity|].
    unfold e_adj2, in_order, eval, bind. walk ltac:(rewrite (fun i j s => idx_run c o 2 m x i j s H) by lia).
    now rewrite mnew_spec by (reflexivity || lia).
  - destruct (C70_determinant S T c d o m x s) as (_ & _ & D). specialize (D H). cbn [det] in D.
    unfold inv3, by_adjugate, bind. rewrite D. split1 (eval o x e_det3 s). destruct (o_is_zero o a); [reflexivity|].
    unfold e_adj3, ms, in_order, eval, bind. walk ltac:(rewrite (fun i j s => idx_run c o 3 m x i j s H) by lia).
    now rewrite mnew_spec by (reflexivity || lia).
Qed.
Print Assumptions C70_inverse.
(** Sums start from zero and take the elements in order; the norm squares each before adding it. *)
Theorem C70_sums : forall S T (o : fops S T) (s : S),
  (forall n v, length v = n -> vsum (f_ops o) n v s = running_sum (f_ops o) (o_clone (f_ops o)) v s) /\
  (forall row col m, rect row col m -> msum (f_ops o) row col m s = running_sum (f_ops o) (running_sum (f_ops o) (o_clone (f_ops o))) m s) /\
  (forall n v, length v = n ->
     vnorm o n v s = (q <- running_sum (f_ops o) (fun x => y <- o_clone (f_ops o) x ;; f_powi2 o y) v ;; f_sqrt o q) s).
Proof.
  intros S T o s. split; [|split].
  - intros n v L. now apply vsum_spec.
  - intros row col m R. now apply (msum_spec (f_ops o) row col).
  - intros n v L. rewrite (vnorm_spec o n v s L). unfold bind at 1 4, running_sum.
    assert (E : forall l z s, fold_in_order (fun acc x => y <- o_clone (f_ops o) x ;; z <- f_powi2 o y ;; o_add (f_ops o) acc z) l z s =
      fold_in_order (fun acc x => t <- (y <- o_clone (f_ops o) x ;; f_powi2 o y) ;; o_add (f_ops o) acc t) l z s).
    { induction l as [|y l IH]; intros z s0; [reflexivity|]. cbn [fold_in_order]. unfold bind.
      destruct (o_clone (f_ops o) y s0) as [[u| | |] s1]; try reflexivity. destruct (f_powi2 o u s1) as [[w| | |] s2]; try reflexivity.
      destruct (o_add (f_ops o) z w s2) as [[q| | |] s3]; try reflexivity. apply IH. }
    rewrite E. reflexivity.
Qed.
Print Assumptions C70_sums.

(** Two matrices and two vectors of numbers, multiplications logged; multiplying by 9 panics. *)
Example C70_formulas_ex :
  vcross dbg logging [1; 2; 3] [4; 5; 6] [] = (Ok [0; 6; 0], [(2, 6); (3, 5); (3, 4); (1, 6); (1, 5); (2, 4)]) /\
  vcross dbg logging [1; 2; 3] [4; 9; 6] [] = (Panic, [(2, 6); (3, 9)]) /\
  (forall c d s, det c d logging 2 [[5; 6]; [7; 8]] s = (Ok 0, s ++ [(5, 8)] ++ [(7, 6)])).
Proof. split; [vm_compute; reflexivity|]. split; [vm_compute; reflexivity|]. intros c d s.
  assert (H : entries 2 [[5; 6]; [7; 8]] (fun i j => nth j (nth i [[5; 6]; [7; 8]] []) 0)).
  { split; [split; [reflexivity|repeat constructor]|]. intros i j Hi Hj. destruct i as [|[|]], j as [|[|]]; try lia; reflexivity. }
  rewrite (proj1 (proj2 (C70_determinant _ _ c d logging _ _ s)) H). cbn. now rewrite <- app_assoc.
Qed.
