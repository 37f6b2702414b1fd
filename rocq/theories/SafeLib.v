(** * SafeLib.v - the functions of the crate in the logic of SafeProofs.v. *)
From Coq Require Import List Arith Bool Lia.
From Verif Require Import Rust Iter Elem VectorM MatIterM MatrixM ArithM OpsM CmpM FmtM IterProofs MatProofs SpecCommon ChunkProofs Harness.
From Verif Require Import SpecSafe SafeProofs.
Import ListNotations.

Lemma vec_len {T} n (P : T -> Prop) v : vec n P v -> length v = n.
Proof. now intros [H _]. Qed.
Lemma vec_all {T} n (P : T -> Prop) v : vec n P v -> Forall P v.
Proof. now intros [_ H]. Qed.

Section Lib.
Context {S : Type} (D : Prop) (I : S -> Prop) (c : cfg).
Notation "'T'" := (tri D I).

Lemma FF : False -> D.
Proof. tauto. Qed.
(** Collecting at most [n] items. *)
Lemma t_collect {A} (Q : A -> Prop) (d : ety S A) n it : dsafe I d ->
  isafe D I False Q n it -> T (vec n Q) (from_iter c d n it).
Proof. intros Hd Hit. apply (tri_from_iter D I False Q c d n n it FF Hd Hit). right; lia. Qed.
Lemma s_viter {A} (Q : A -> Prop) n v : vec n Q v -> isafe D I False Q n (viter v).
Proof. intros [HL HF]. rewrite <- HL. now apply isafe_slice. Qed.
Lemma s_cloned {A} (Q : A -> Prop) cl k it : (forall x, Q x -> T Q (cl x)) ->
  isafe D I False Q k it -> isafe D I False Q k (cloned cl it).
Proof. intros H Hit. now apply (isafe_imap D I False Q Q cl). Qed.
Lemma t_fold {A C} (Q : A -> Prop) (R : C -> Prop) n it st body :
  isafe D I False Q n it -> R st -> (forall st x, R st -> Q x -> T R (body st x)) ->
  T R (fold (Datatypes.S n) it st body).
Proof. intros Hit HR HB. apply (tri_for_each D I False Q R body FF HB _ n it st Hit); [right; lia|exact HR]. Qed.
Lemma t_all {A} (Q : A -> Prop) n it p :
  isafe D I False Q n it -> (forall x, Q x -> T any (p x)) -> T any (iall (Datatypes.S n) it p).
Proof. intros Hit HP. apply (tri_iall D I False Q p FF HP _ n it Hit). right; lia. Qed.
Lemma t_any {A} (Q : A -> Prop) n it p :
  isafe D I False Q n it -> (forall x, Q x -> T any (p x)) -> T any (iany (Datatypes.S n) it p).
Proof. intros Hit HP. apply (tri_iany D I False Q p FF HP _ n it Hit). right; lia. Qed.

(** ** Vectors *)
Lemma t_vgenerate {A} (P : A -> Prop) (d : ety S A) n f : dsafe I d ->
  (forall i, i < n -> T P (f i)) -> T (vec n P) (vgenerate c d n f).
Proof.
  intros Hd Hf. apply t_collect; [exact Hd|].
  assert (R : isafe D I False (fun i => 0 <= i < n) n (range 0 n)).
  { pose proof (isafe_range D I False 0 n) as H. now rewrite Nat.sub_0_r in H. }
  apply (isafe_imap _ _ _ _ _ _ _ _ R). intros i Hi. apply Hf. lia.
Qed.
Lemma t_vclone {A} (P : A -> Prop) (d : ety S A) n cl v : dsafe I d ->
  (forall x, P x -> T P (cl x)) -> vec n P v -> T (vec n P) (vclone c d n cl v).
Proof. intros Hd Hc Hv. apply t_collect; [exact Hd|]. apply s_cloned; [exact Hc|]. now apply s_viter. Qed.

Section Zip.
Context {A B C : Type} (PA : A -> Prop) (PB : B -> Prop) (PC : C -> Prop).
Variables (da : ety S A) (db : ety S B) (dc : ety S C).
Variable op : A -> B -> M S C.
Hypothesis (Ha : dsafe I da) (Hb : dsafe I db) (Hc : dsafe I dc).
Hypothesis Hop : forall x y, PA x -> PB y -> T PC (op x y).
Variables (n : nat) (a : list A) (b : list B).
Hypothesis (HW : n < W c) (Va : vec n PA a) (Vb : vec n PB b).
Lemma t_zip0 (dz : ety S A) ia ib : dsafe I dz -> isafe D I False PA n ia -> isafe D I False PB n ib ->
  T (vec n PC) (from_iter c dc n (imap (fun p => op (fst p) (snd p)) (zip dz ia ib))).
Proof.
  intros Hz H1 H2. apply t_collect; [exact Hc|].
  apply (isafe_imap _ _ _ _ _ _ _ _ (isafe_zip D I False False PA PB dz n n ia ib Hz H1 H2)).
  intros [x y] [Hx Hy]. now apply Hop.
Qed.
Lemma t_vzip_vv : T (vec n PC) (vzip_vv c da db dc n op a b).
Proof. apply t_zip0; [exact Ha|now apply isafe_into|now apply isafe_into]. Qed.
Lemma t_vzip_vr : T (vec n PC) (vzip_vr c da dc n op a b).
Proof. apply t_zip0; [exact Ha|now apply isafe_into|now apply s_viter]. Qed.
Lemma t_vzip_rv : T (vec n PC) (vzip_rv c db dc n op a b).
Proof. apply t_zip0; [apply dsafe_ref|now apply s_viter|now apply isafe_into]. Qed.
Lemma t_vzip_rr : T (vec n PC) (vzip_rr c dc n op a b).
Proof. apply t_zip0; [apply dsafe_ref|now apply s_viter|now apply s_viter]. Qed.
End Zip.

Lemma t_vscale {A U C} (PA : A -> Prop) (PU : U -> Prop) (PC : C -> Prop) (d : ety S A) (dc : ety S C)
    n op cl v rhs : dsafe I d -> dsafe I dc -> n < W c ->
  (forall x y, PA x -> PU y -> T PC (op x y)) -> (forall u, PU u -> T PU (cl u)) ->
  vec n PA v -> PU rhs -> T (vec n PC) (vscale c d dc n op cl v rhs).
Proof.
  intros Hd Hdc HW Hop Hcl Hv Hr. apply t_collect; [exact Hdc|].
  apply (isafe_imap _ _ _ _ _ _ _ _ (isafe_into D I False PA c d n v Hd HW Hv)).
  intros x Hx. eapply tri_bind; [now apply Hcl|]. intros u Hu. now apply Hop.
Qed.
Lemma t_vneg {A C} (PA : A -> Prop) (PC : C -> Prop) (d : ety S A) (dc : ety S C) n neg v :
  dsafe I d -> dsafe I dc -> n < W c -> (forall x, PA x -> T PC (neg x)) -> vec n PA v ->
  T (vec n PC) (vneg c d dc n neg v).
Proof.
  intros Hd Hdc HW Hop Hv. apply t_collect; [exact Hdc|].
  now apply (isafe_imap _ _ _ _ _ _ _ _ (isafe_into D I False PA c d n v Hd HW Hv)).
Qed.
Lemma t_vop_assign {A U} (PA : A -> Prop) (PU : U -> Prop) (du : ety S U) n op rhs :
  dsafe I du -> n < W c -> (forall u, PU u -> tri D (pI PA I) any (op u)) -> vec n PU rhs ->
  tri D (pI (vec n PA) I) any (vop_assign c du n op rhs).
Proof.
  intros Hd HW Hop Hr. exact (tri_iter_mut_zip D I PA False PU n op Hop n _ (isafe_into D I False PU c du n rhs Hd HW Hr)).
Qed.
Lemma t_vscale_assign {A U} (PA : A -> Prop) (PU : U -> Prop) n op cl (rhs : U) :
  (forall u, PU u -> tri D (pI PA I) any (op u)) -> (forall u, PU u -> T PU (cl u)) -> PU rhs ->
  tri D (pI (vec n PA) I) any (@vscale_assign S A U op cl rhs).
Proof.
  intros Hop Hcl Hr. apply (tri_iter_mut D I PA n). eapply tri_bind; [apply tri_lift; apply Hcl, Hr|].
  intros u Hu. now apply Hop.
Qed.

(** ** Element operations *)
Record ops_ok {A} (P : A -> Prop) (o : ops S A) : Prop := OpsOk {
  k_zero : P (o_zero o);
  k_one : P (o_one o);
  k_add : forall x y, P x -> P y -> T P (o_add o x y);
  k_sub : forall x y, P x -> P y -> T P (o_sub o x y);
  k_mul : forall x y, P x -> P y -> T P (o_mul o x y);
  k_div : forall x y, P x -> P y -> T P (o_div o x y);
  k_neg : forall x, P x -> T P (o_neg o x);
  k_clone : forall x, P x -> T P (o_clone o x) }.

Section Elem.
Context {A : Type} (P : A -> Prop) (d : ety S A) (o : ops S A).
Hypothesis (Hd : dsafe I d) (K : ops_ok P o).
Let Hdv : dsafe I (vec_ety d).
Proof. now apply dsafe_vec. Qed.
Let Kz : P (o_zero o).
Proof. apply K. Qed.
Let K1 : P (o_one o).
Proof. apply K. Qed.
Let Ka : forall x y, P x -> P y -> T P (o_add o x y).
Proof. apply K. Qed.
Let Ks : forall x y, P x -> P y -> T P (o_sub o x y).
Proof. apply K. Qed.
Let Km : forall x y, P x -> P y -> T P (o_mul o x y).
Proof. apply K. Qed.
Let Kd : forall x y, P x -> P y -> T P (o_div o x y).
Proof. apply K. Qed.
Let Kn : forall x, P x -> T P (o_neg o x).
Proof. apply K. Qed.
Let Kc : forall x, P x -> T P (o_clone o x).
Proof. apply K. Qed.

Lemma t_vis_zero n v : vec n P v -> T any (vis_zero o n v).
Proof. intros Hv. apply (t_all P); [now apply s_viter|]. intros x _. now apply tri_ret. Qed.
Lemma t_vdot n a b : vec n P a -> vec n P b -> T P (vdot o n a b).
Proof.
  intros Va Vb. apply (t_fold P P); [|exact Kz|exact Ka].
  assert (Ia : isafe D I False P n (cloned (o_clone o) (viter a))) by (apply s_cloned; [exact Kc|now apply s_viter]).
  assert (Ib : isafe D I False P n (cloned (o_clone o) (viter b))) by (apply s_cloned; [exact Kc|now apply s_viter]).
  apply (isafe_imap _ _ _ _ _ _ _ _ (isafe_zip D I False False P P ref_ety n n _ _ (dsafe_ref I) Ia Ib)).
  intros [x y] [Hx Hy]. now apply Km.
Qed.
Lemma t_vsum n v : vec n P v -> T P (vsum o n v).
Proof.
  intros Hv. apply (t_fold P P); [|exact Kz|exact Ka]. apply s_cloned; [exact Kc|now apply s_viter].
Qed.
Lemma t_vidx v i : vec 3 P v -> i < 3 -> T P (vidx c o v i).
Proof.
  intros Hv Hi. eapply (tri_bind D I P); [|exact Kc]. destruct i; now apply tri_vget.
Qed.
Lemma t_cross_term a b i j k l : vec 3 P a -> vec 3 P b -> i < 3 -> j < 3 -> k < 3 -> l < 3 ->
  T P (cross_term c o a b i j k l).
Proof.
  intros Va Vb Hi Hj Hk Hl. unfold cross_term.
  eapply tri_bind; [apply (t_vidx a i Va Hi)|intros x1 H1].
  eapply tri_bind; [apply (t_vidx b j Vb Hj)|intros y1 H2].
  eapply tri_bind; [apply (Km x1 y1 H1 H2)|intros p1 H3].
  eapply tri_bind; [apply (t_vidx a k Va Hk)|intros x2 H4].
  eapply tri_bind; [apply (t_vidx b l Vb Hl)|intros y2 H5].
  eapply tri_bind; [apply (Km x2 y2 H4 H5)|intros p2 H6]. now apply Ks.
Qed.
Lemma t_vcross a b : vec 3 P a -> vec 3 P b -> T (vec 3 P) (vcross c o a b).
Proof.
  intros Va Vb. unfold vcross.
  eapply tri_bind; [apply t_cross_term; auto with arith|intros e0 H0].
  eapply tri_bind; [apply t_cross_term; auto with arith|intros e1 H1].
  eapply tri_bind; [apply t_cross_term; auto with arith|intros e2 H2].
  apply tri_ret. split; [reflexivity|repeat constructor; assumption].
Qed.

(** ** Matrices *)
Lemma t_mgenerate row col f : (forall i j, i < row -> j < col -> T P (f (i, j))) ->
  T (mat row col P) (mgenerate c d row col f).
Proof.
  intros Hf. apply (t_vgenerate (vec col P) (vec_ety d) row _ Hdv).
  intros i Hi. apply t_vgenerate; [exact Hd|]. intros j Hj. now apply Hf.
Qed.
Lemma t_mnew row col rows : row < W c -> mat row col P rows -> T (mat row col P) (mnew c d row rows).
Proof.
  intros HW Hm. apply t_collect; [exact Hdv|].
  apply (isafe_imap _ _ _ _ _ _ _ _ (isafe_into D I False (vec col P) c (vec_ety d) row rows Hdv HW Hm)).
  intros r Hr. now apply tri_ret.
Qed.
Lemma t_mclone row col m : mat row col P m -> T (mat row col P) (mclone c d (o_clone o) row col m).
Proof.
  intros Hm. apply (t_vclone (vec col P)); [exact Hdv| |exact Hm]. intros r Hr. now apply t_vclone.
Qed.
Lemma t_midentity n : T (mat n n P) (midentity c d o n).
Proof. apply t_mgenerate. intros i j _ _. destruct (i =? j); now apply tri_ret. Qed.
Lemma t_mindex row col m ij : mat row col P m -> T P (mindex m ij).
Proof.
  intros [HL HF]. destruct ij as [i j]. eapply tri_bind; [apply (tri_slice_index D I (vec col P) m i HF)|].
  intros r [_ Hr]. now apply tri_slice_index.
Qed.
Lemma t_mindex_set row col m ij x : mat row col P m -> P x -> T (mat row col P) (mindex_set m ij x).
Proof.
  intros Hm Hx. destruct ij as [i j]. eapply tri_bind; [apply (tri_slice_index D I (vec col P) m i (proj2 Hm))|].
  intros r Hr. eapply tri_bind; [apply (tri_slice_assign D I P col r j x Hr Hx)|].
  intros r' Hr'. now apply tri_slice_assign.
Qed.
Lemma t_get2 row col m i j : mat row col P m -> i < row -> j < col ->
  T P (r <- vget_unchecked c row m i ;; vget_unchecked c col r j).
Proof.
  intros Hm Hi Hj. eapply tri_bind; [apply (tri_vget D I (vec col P) c row m i Hm Hi)|].
  intros r Hr. now apply tri_vget.
Qed.
Lemma t_set2 row col m i j x : mat row col P m -> i < row -> j < col -> P x ->
  T (mat row col P) (r <- vget_unchecked c row m i ;; r' <- vset_unchecked c col r j x ;; vset_unchecked c row m i r').
Proof.
  intros Hm Hi Hj Hx. eapply tri_bind; [apply (tri_vget D I (vec col P) c row m i Hm Hi)|].
  intros r Hr. eapply tri_bind; [apply (tri_vset D I P c col r j x Hr Hx Hj)|].
  intros r' Hr'. now apply tri_vset.
Qed.
Lemma t_static row col m i j : mat row col P m -> i < row -> j < col -> T P (mindex_static c row col m (i, j)).
Proof. intros Hm Hi Hj. destruct i, j; now apply t_get2. Qed.
Lemma t_static_set row col m i j x : mat row col P m -> i < row -> j < col -> P x ->
  T (mat row col P) (mindex_static_set c row col m (i, j) x).
Proof. intros Hm Hi Hj Hx. destruct i, j; now apply t_set2. Qed.
Lemma t_mis_zero row col m : mat row col P m -> T any (mis_zero o row col m).
Proof.
  intros Hm. apply (t_all (vec col P)); [now apply s_viter|]. intros r Hr.
  apply (t_all P); [now apply s_viter|]. intros x _. now apply tri_ret.
Qed.
Lemma t_msum row col m : mat row col P m -> T P (msum o row col m).
Proof.
  intros Hm. apply (t_fold P P); [|exact Kz|exact Ka].
  apply (isafe_imap _ _ _ _ _ _ _ _ (s_viter (vec col P) row m Hm)). intros r Hr. now apply t_vsum.
Qed.
Lemma t_mtransposed row col cl m : col < W c -> (forall x, P x -> T P (cl x)) -> mat row col P m ->
  T (mat col row P) (mtransposed c d cl row col m).
Proof.
  intros HW Hcl Hm. apply t_collect; [exact Hdv|]. now apply isafe_ci.
Qed.
Lemma t_mscale row col op cl m rhs : row < W c -> col < W c ->
  (forall x y, P x -> P y -> T P (op x y)) -> (forall x, P x -> T P (cl x)) ->
  mat row col P m -> P rhs -> T (mat row col P) (mscale c d row col op cl m rhs).
Proof.
  intros H1 H2 Hop Hcl Hm Hr. apply t_collect; [exact Hdv|].
  apply (isafe_imap _ _ _ _ _ _ _ _ (isafe_into D I False (vec col P) c (vec_ety d) row m Hdv H1 Hm)).
  intros r Hrow. eapply tri_bind; [apply Hcl, Hr|]. intros s Hs. now apply (t_vscale P P P).
Qed.
Lemma t_mscale_ref row col op m rhs : row < W c -> col < W c ->
  (forall x y, P x -> P y -> T P (op x y)) ->
  mat row col P m -> P rhs -> T (mat row col P) (mscale_ref c d row col op m rhs).
Proof.
  intros H1 H2 Hop Hm Hr. apply t_collect; [exact Hdv|].
  apply (isafe_imap _ _ _ _ _ _ _ _ (isafe_into D I False (vec col P) c (vec_ety d) row m Hdv H1 Hm)).
  intros r Hrow. apply (t_vscale P P P); auto. intros u Hu. now apply tri_ret.
Qed.
Lemma t_entry_cloned n rc rhs lrow rcol : n < W c -> mat n rc P rhs -> vec n P lrow -> colit n rc rcol ->
  T P (entry_cloned c d o n rc rhs lrow rcol).
Proof.
  intros HW Hm Hl Hc. apply (t_fold P P); [|exact Kz|exact Ka].
  assert (Ia : isafe D I False P n (cloned (o_clone o) (slice_iter lrow)))
    by (apply s_cloned; [exact Kc|now apply s_viter]).
  assert (Ib : isafe D I False P n (cloned (o_clone o) (cin_iter c n rc rhs rcol)))
    by (apply s_cloned; [exact Kc|now apply isafe_cin]).
  apply (isafe_imap _ _ _ _ _ _ _ _ (isafe_zip D I False False P P d n n _ _ Hd Ia Ib)).
  intros [x y] [Hx Hy]. now apply Km.
Qed.
Lemma t_entry_ref n rc rhs lrow rcol : n < W c -> mat n rc P rhs -> vec n P lrow -> colit n rc rcol ->
  T P (entry_ref c d o n rc rhs lrow rcol).
Proof.
  intros HW Hm Hl Hc. apply (t_fold P P); [|exact Kz|exact Ka].
  assert (Ia : isafe D I False P n (cloned (o_clone o) (slice_iter lrow)))
    by (apply s_cloned; [exact Kc|now apply s_viter]).
  assert (Ib : isafe D I False P n (cin_iter c n rc rhs rcol)) by now apply isafe_cin.
  apply (isafe_imap _ _ _ _ _ _ _ _ (isafe_zip D I False False P P d n n _ _ Hd Ia Ib)).
  intros [x y] [Hx Hy]. now apply Km.
Qed.
Section Mul.
Variables (lr n rc : nat) (a b : list (list A)).
Hypothesis (W1 : lr < W c) (W2 : n < W c) (W3 : rc < W c) (Ma : mat lr n P a) (Mb : mat n rc P b).
Lemma t_mul0 f : (forall lrow rcol, vec n P lrow -> colit n rc rcol -> T P (f lrow rcol)) ->
  T (mat lr rc P) (from_iter c (vec_ety d) lr
    (imap (fun lrow => from_iter c d rc (imap (f lrow) (cols_iter_ref c n rc))) (rows_iter_ref c lr a))).
Proof.
  intros Hf. apply t_collect; [exact Hdv|].
  apply (isafe_imap _ _ _ _ _ _ _ _ (isafe_rr D I False (vec n P) c lr a Ma W1)).
  intros r Hr. apply t_collect; [exact Hd|].
  apply (isafe_imap _ _ _ _ _ _ _ _ (isafe_cr D I False c n rc W3)). intros q Hq. now apply Hf.
Qed.
Lemma t_mmul_vv : T (mat lr rc P) (mmul_vv c d o lr n rc a b).
Proof. apply t_mul0. intros. now apply t_entry_cloned. Qed.
Lemma t_mmul_vr : T (mat lr rc P) (mmul_vr c d o lr n rc a b).
Proof. apply t_mul0. intros. now apply t_entry_ref. Qed.
Lemma t_mmul_rr : T (mat lr rc P) (mmul_rr c d o lr n rc a b).
Proof. apply t_mul0. intros. now apply t_entry_ref. Qed.
Lemma t_mmul_rv : T (mat lr rc P) (mmul_rv c d o lr n rc a b).
Proof. apply t_mul0. intros. now apply t_entry_cloned. Qed.
End Mul.
Lemma t_mmul_assign n rhs : n < W c -> mat n n P rhs ->
  tri D (pI (mat n n P) I) any (mmul_assign c d o n rhs).
Proof.
  intros HW Hr. eapply tri_bind; [apply tri_self|]. intros m Hm.
  eapply tri_bind; [apply tri_lift; apply (t_mmul_vv n n n m rhs HW HW HW Hm Hr)|].
  intros m' Hm'. now apply tri_set.
Qed.
Lemma t_mmulv row col m v : row < W c -> mat row col P m -> vec col P v -> T (vec row P) (mmulv c d o row col m v).
Proof.
  intros H1 Hm Hv. apply t_collect; [exact Hd|].
  apply (isafe_imap _ _ _ _ _ _ _ _ (isafe_rr D I False (vec col P) c row m Hm H1)).
  intros r Hr. apply (t_fold P P); [|exact Kz|exact Ka].
  assert (Ib : isafe D I False P col (cloned (o_clone o) (viter v))) by (apply s_cloned; [exact Kc|now apply s_viter]).
  apply (isafe_imap _ _ _ _ _ _ _ _
           (isafe_zip D I False False P P ref_ety col col _ _ (dsafe_ref I) (s_viter P col r Hr) Ib)).
  intros [x y] [Hx Hy]. eapply tri_bind; [apply Kc, Hx|]. intros x' Hx'. now apply Km.
Qed.
Lemma t_mmulv_ref row col m v : row < W c -> col < W c -> mat row col P m -> vec col P v ->
  T (vec row P) (mmulv_ref c d o row col m v).
Proof.
  intros H1 H2 Hm Hv. apply t_collect; [exact Hd|].
  apply (isafe_imap _ _ _ _ _ _ _ _ (isafe_into D I False (vec col P) c (vec_ety d) row m Hdv H1 Hm)).
  intros r Hr. apply (t_fold P P); [|exact Kz|exact Ka].
  apply (isafe_imap _ _ _ _ _ _ _ _
           (isafe_zip D I False False P P d col col _ _ Hd (isafe_into D I False P c d col r Hd H2 Hr) (s_viter P col v Hv))).
  intros [x y] [Hx Hy]. now apply Km.
Qed.

(** [num::pow]: the fuel suffices. *)
Lemma t_pow {X} (Q : X -> Prop) mul cl one base e :
  (forall x y, Q x -> Q y -> T Q (mul x y)) -> (forall x, Q x -> T Q (cl x)) -> T Q one -> Q base ->
  T Q (num_pow mul cl one base e).
Proof.
  intros Hm Hc H1 Hb. unfold num_pow. destruct (Nat.eqb_spec e 0) as [->|He]; [exact H1|].
  assert (L1 : forall fuel base e, Q base -> 0 < e <= fuel -> T (fun p => Q (fst p)) (pow_loop1 mul cl fuel base e)).
  { induction fuel as [|fuel IH]; intros b e0 HQ HE; [lia|]. cbn [pow_loop1].
    destruct (Nat.even e0) eqn:E; [|now apply tri_ret].
    eapply tri_bind; [apply Hc, HQ|]. intros b1 Hb1. eapply tri_bind; [apply (Hm b1 b Hb1 HQ)|].
    intros b2 Hb2. apply IH; [exact Hb2|]. apply Nat.even_spec in E. destruct E as [q ->].
    rewrite Nat.div2_double. lia. }
  assert (L2 : forall fuel base acc e, Q base -> Q acc -> e <= fuel -> T Q (pow_loop2 mul cl fuel base acc e)).
  { induction fuel as [|fuel IH]; intros b acc e0 HQ HA HE; cbn [pow_loop2].
    - destruct (Nat.ltb_spec 1 e0); [lia|]. now apply tri_ret.
    - destruct (Nat.ltb_spec 1 e0); [|now apply tri_ret].
      eapply tri_bind; [apply Hc, HQ|]. intros b1 Hb1. eapply tri_bind; [apply (Hm b1 b Hb1 HQ)|].
      intros b2 Hb2. eapply (tri_bind D I Q).
      + destruct (Nat.odd (Nat.div2 e0)); [|now apply tri_ret].
        eapply tri_bind; [apply Hc, Hb2|]. intros b3 Hb3. now apply Hm.
      + intros acc' HA'. apply IH; [exact Hb2|exact HA'|]. pose proof (Nat.lt_div2 e0). lia. }
  assert (L1' : T (fun p => Q (fst p) /\ snd p <= e) (pow_loop1 mul cl e base e)).
  { assert (G : forall fuel base e, Q base -> 0 < e <= fuel ->
        T (fun p => Q (fst p) /\ snd p <= e) (pow_loop1 mul cl fuel base e)); [|apply G; [exact Hb|lia]].
    induction fuel as [|fuel IH]; intros b e0 HQ HE; [lia|]. cbn [pow_loop1].
    destruct (Nat.even e0) eqn:E; [|apply tri_ret; now split].
    eapply tri_bind; [apply Hc, HQ|]. intros b1 Hb1. eapply tri_bind; [apply (Hm b1 b Hb1 HQ)|].
    intros b2 Hb2. apply Nat.even_spec in E. destruct E as [q ->]. rewrite Nat.div2_double.
    eapply tri_weak; [apply IH; [exact Hb2|lia]|]. intros [x k]; cbn. intros [? ?]; split; [assumption|lia]. }
  eapply tri_bind; [exact L1'|]. intros [b e'] [Hb' He']. cbn in Hb', He'.
  destruct (e' =? 1); [now apply tri_ret|].
  eapply tri_bind; [apply Hc, Hb'|]. intros acc HA. apply L2; auto.
Qed.
Lemma t_mpow n m e : n < W c -> mat n n P m -> T (mat n n P) (mpow c d o n m e).
Proof.
  intros HW Hm. unfold mpow. eapply tri_bind; [apply (t_mclone n n m Hm)|]. intros m' Hm'.
  apply t_pow; [intros x y Hx Hy; now apply t_mmul_vv|intros x Hx; now apply t_mclone|apply t_midentity|exact Hm'].
Qed.

(** ** Determinant, cofactor, inverse *)
Lemma t_idx n m i j : mat n n P m -> i < n -> j < n -> T P (idx c o n m i j).
Proof. intros Hm Hi Hj. eapply tri_bind; [apply (t_static n n m i j Hm Hi Hj)|exact Kc]. Qed.
Lemma t_ix n m i j : mat n n P m -> T P (ix o m i j).
Proof. intros Hm. eapply tri_bind; [apply (t_mindex n n m (i, j) Hm)|exact Kc]. Qed.
Ltac tstep :=
  match goal with
  | |- tri _ _ _ (bind (idx _ _ _ _ _ _) _) => eapply tri_bind; [apply t_idx; [eassumption|lia|lia]|intros ? ?]
  | |- tri _ _ _ (bind (ix _ _ _ _) _) => eapply tri_bind; [eapply t_ix; eassumption|intros ? ?]
  | |- tri _ _ _ (bind (o_mul _ _ _) _) => eapply tri_bind; [apply Km; eassumption|intros ? ?]
  | |- tri _ _ _ (bind (o_add _ _ _) _) => eapply tri_bind; [apply Ka; eassumption|intros ? ?]
  | |- tri _ _ _ (bind (o_sub _ _ _) _) => eapply tri_bind; [apply Ks; eassumption|intros ? ?]
  | |- tri _ _ _ (bind (o_div _ _ _) _) => eapply tri_bind; [apply Kd; eassumption|intros ? ?]
  | |- tri _ _ _ (bind (o_neg _ _) _) => eapply tri_bind; [apply Kn; eassumption|intros ? ?]
  | |- tri _ _ _ (bind (o_clone _ _) _) => eapply tri_bind; [apply Kc; eassumption|intros ? ?]
  | |- tri _ _ _ (bind (mindex_set _ _ _) _) => eapply tri_bind; [eapply t_mindex_set; eassumption|intros ? ?]
  | |- tri _ _ _ (o_mul _ _ _) => apply Km; assumption
  | |- tri _ _ _ (o_add _ _ _) => apply Ka; assumption
  | |- tri _ _ _ (o_sub _ _ _) => apply Ks; assumption
  | |- tri _ _ _ (mindex_set _ _ _) => eapply t_mindex_set; eassumption
  end.
Lemma t_det1 m : mat 1 1 P m -> T P (OpsM.det1 c o m).
Proof. intros Hm. apply t_idx; [exact Hm|lia|lia]. Qed.
Lemma t_det2 m : mat 2 2 P m -> T P (det2 c o m).
Proof. intros Hm. unfold det2. repeat tstep. Qed.
Lemma t_term3 m i1 j1 i2 j2 i3 j3 : mat 3 3 P m -> i1 < 3 -> j1 < 3 -> i2 < 3 -> j2 < 3 -> i3 < 3 -> j3 < 3 ->
  T P (term3 c o m i1 j1 i2 j2 i3 j3).
Proof. intros Hm ? ? ? ? ? ?. unfold term3. repeat tstep. Qed.
Ltac tterm := eapply tri_bind; [apply t_term3; [eassumption|lia|lia|lia|lia|lia|lia]|intros ? ?].
Lemma t_det3 m : mat 3 3 P m -> T P (det3 c o m).
Proof. intros Hm. unfold det3. repeat (tterm || tstep). Qed.
Lemma t_elim_row n i j dd m : mat n n P m -> P dd -> T (mat n n P) (elim_row o n i j dd m).
Proof.
  intros Hm Hdd. apply (tri_for_range D I (mat n n P)); [|exact Hm]. intros k m' _ Hm'. repeat tstep.
Qed.
Lemma t_range n Q f : (forall i, i < n -> T Q (f i)) -> isafe D I False Q n (imap f (@range S 0 n)) (A := A).
Proof.
  intros Hf. assert (R : isafe D I False (fun i => 0 <= i < n) n (range 0 n)).
  { pose proof (isafe_range D I False 0 n) as H. now rewrite Nat.sub_0_r in H. }
  apply (isafe_imap _ _ _ _ _ _ _ _ R). intros i Hi. apply Hf. lia.
Qed.
Lemma t_expand n m cof : mat n n P m -> (forall ij, T P (cof ij)) -> T P (expand_col0 o n m cof).
Proof.
  intros Hm Hcof. apply (t_fold P P); [|exact Kz|exact Ka]. apply t_range. intros i _.
  tstep. eapply tri_bind; [apply Hcof|intros ? ?]. tstep.
Qed.
Lemma t_det_big n m cof : mat n n P m -> (forall ij, T P (cof ij)) -> T P (det_big c d o n m cof).
Proof.
  intros Hm Hcof. unfold det_big. eapply tri_bind; [apply (t_mclone n n m Hm)|]. intros m0 H0.
  eapply (tri_bind D I (either (mat n n P) P)).
  - apply tri_for_range_ret; [|exact H0]. intros i m1 _ H1. apply tri_for_range_ret; [|exact H1].
    intros j m2 _ H2. eapply tri_bind; [apply (t_mindex n n m2 (i, i) H2)|]. intros piv _.
    destruct (o_is_zero o piv).
    + eapply tri_bind; [apply (t_expand n m cof Hm Hcof)|]. intros v Hv. now apply tri_ret.
    + do 3 tstep. eapply tri_bind; [apply t_elim_row; eassumption|]. intros m3 Hm3. now apply tri_ret.
  - intros [m1|v] H1; [|now apply tri_ret]. cbn in H1.
    apply (t_fold P P); [|exact K1|exact Km]. apply t_range. intros i _. now apply (t_ix n).
Qed.
Lemma t_cof_sign i j : T P (cof_sign c o i j).
Proof. eapply tri_bind; [apply tri_usz_add|]. intros s _. destruct (_ =? _); [now apply tri_ret|now apply Kn]. Qed.
Lemma t_cof2 m ij : mat 2 2 P m -> T P (cof2 c o m ij).
Proof.
  intros Hm. destruct ij as [i j]. cbn [cof2]. eapply tri_bind; [apply t_cof_sign|intros sg Hs].
  eapply tri_bind; [apply tri_usz_sub|intros a _]. eapply tri_bind; [apply tri_usz_sub|intros b _]. repeat tstep.
Qed.
Lemma skip_length {X} (l : list X) i : i < length l ->
  length (List.filter (fun '(ii, _) => negb (ii =? i)) (indexed l)) = length l - 1.
Proof.
  unfold indexed. assert (H : forall k, length (List.filter (fun '(ii, _) => negb (ii =? i)) (combine (seq k (length l)) l))
    = if (k <=? i) && (i <? k + length l) then length l - 1 else length l).
  { induction l as [|x l IH]; intros k; cbn [length seq combine List.filter].
    - destruct (_ && _); reflexivity.
    - destruct (Nat.eqb_spec k i) as [->|Hk]; cbn [negb length]; rewrite IH.
      + destruct (Nat.leb_spec (Datatypes.S i) i); [lia|]. rewrite Nat.leb_refl. cbn [andb].
        destruct (Nat.ltb_spec i (i + Datatypes.S (length l))); lia.
      + destruct (Nat.leb_spec (Datatypes.S k) i), (Nat.leb_spec k i); try lia; cbn [andb]; auto.
        destruct (Nat.ltb_spec i (Datatypes.S k + length l)), (Nat.ltb_spec i (k + Datatypes.S (length l))); lia. }
  intros Hi. rewrite H. cbn [Nat.leb andb plus]. destruct (Nat.ltb_spec i (length l)); [|lia]. reflexivity.
Qed.
Lemma isafe_skip {X} (Q : X -> Prop) it l n i : gives it (map ret l) nodrop -> vec n Q l -> i < n ->
  isafe D I False (fun p => Q (snd p)) (n - 1)
    (filter (Datatypes.S n) ref_ety (fun '(ii, _) => negb (ii =? i)) (@enumerate S X it)).
Proof.
  intros G [HL HF] Hi. apply enumerate_ret_gives in G.
  apply (filter_gives (Datatypes.S n) ref_ety (fun '(ii, _) => negb (ii =? i))) in G;
    [|rewrite indexed_length; lia|reflexivity].
  assert (HF' : Forall (fun p => Q (snd p)) (List.filter (fun '(ii, _) => negb (ii =? i)) (indexed l))).
  { apply Forall_forall. intros [k x] Hin. apply filter_In in Hin. destruct Hin as [Hin _].
    apply indexed_in, nth_error_In in Hin. rewrite Forall_forall in HF. cbn. auto. }
  pose proof (isafe_gives D I False _ _ _ _ G (Forall_ret D I _ _ HF') (keep_nodrop I)) as H.
  rewrite map_length, skip_length, HL in H by lia. exact H.
Qed.
Lemma t_submatrix n m i j : n < W c -> mat n n P m -> i < n -> j < n ->
  T (mat (n - 1) (n - 1) P) (submatrix c d o n m i j).
Proof.
  intros HW Hm Hi Hj. apply t_collect; [exact Hdv|].
  apply (isafe_imap _ _ _ _ _ _ _ _ (isafe_skip (vec n P) _ m n i (rr_gives c n m (proj1 Hm) HW) Hm Hi)).
  intros [k r] Hr. cbn in Hr. apply t_collect; [exact Hd|].
  apply (isafe_imap _ _ _ _ _ _ _ _ (isafe_skip P _ r n j (slice_iter_gives r) Hr Hj)).
  intros [k' x] Hx. now apply Kc.
Qed.
Lemma t_assert_then {X} (Q : X -> Prop) b m : (b = true -> T Q m) -> T Q (assert b ;;; m).
Proof. intros H. destruct b; cbn; [|apply tri_panic]. now apply (tri_seq D I Q (ret tt) m (tri_ret D I any tt Logic.I)), H. Qed.
Lemma t_cof3 m ij : mat 3 3 P m -> T P (cof3 c d o m ij).
Proof.
  intros Hm. destruct ij as [i j]. apply t_assert_then. intros E. apply andb_prop in E. destruct E as [E1 E2].
  apply Nat.ltb_lt in E1, E2.
  eapply tri_bind; [apply t_cof_sign|intros sg Hs].
  eapply tri_bind; [apply t_submatrix; [pose proof (W_gt c); lia|exact Hm|exact E1|exact E2]|intros a Ha].
  eapply tri_bind; [apply (t_det2 a Ha)|intros dt Hdt]. tstep.
Qed.
Lemma t_cof_big n det' m ij : n < W c -> (forall a, mat (n - 1) (n - 1) P a -> T P (det' a)) -> mat n n P m ->
  T P (cof_big c d o n det' m ij).
Proof.
  intros HW Hdet Hm. destruct ij as [i j]. apply t_assert_then. intros E. apply andb_prop in E. destruct E as [E1 E2].
  apply Nat.ltb_lt in E1, E2.
  eapply tri_bind; [apply (t_submatrix n m i j HW Hm E1 E2)|intros a Ha].
  eapply tri_bind; [apply t_cof_sign|intros sg Hs].
  eapply tri_bind; [apply (Hdet a Ha)|intros dt Hdt]. tstep.
Qed.
Lemma t_det : forall n m, 0 < n -> n < W c -> mat n n P m -> T P (det c d o n m).
Proof.
  induction n as [|n IH]; intros m H0 HW Hm; [lia|].
  destruct n as [|[|[|n]]]; [now apply t_det1|now apply t_det2|now apply t_det3|].
  apply t_det_big; [exact Hm|]. intros ij. apply t_cof_big; [exact HW| |exact Hm].
  intros a Ha. apply IH; [lia|lia|exact Ha].
Qed.
Lemma t_cofactor n m ij : 1 < n -> n < W c -> mat n n P m -> T P (OpsM.cofactor c d o n m ij).
Proof.
  intros H0 HW Hm. destruct n as [|[|[|[|n]]]]; [lia|lia|now apply t_cof2|now apply t_cof3|].
  apply t_cof_big; [exact HW| |exact Hm]. intros a Ha. apply t_det; [lia|lia|exact Ha].
Qed.
Lemma t_ms m i1 j1 i2 j2 i3 j3 i4 j4 : mat 3 3 P m ->
  i1 < 3 -> j1 < 3 -> i2 < 3 -> j2 < 3 -> i3 < 3 -> j3 < 3 -> i4 < 3 -> j4 < 3 ->
  T P (ms c o m i1 j1 i2 j2 i3 j3 i4 j4).
Proof. intros Hm ? ? ? ? ? ? ? ?. unfold ms. repeat tstep. Qed.
Ltac tms := eapply tri_bind; [apply t_ms; [eassumption|lia|lia|lia|lia|lia|lia|lia|lia]|intros ? ?].
Lemma t_new_some row col rows k : row < W c -> mat row col P rows ->
  (forall m, mat row col P m -> T (opt (mat row col P)) (k m)) ->
  T (opt (mat row col P)) (bind (mnew c d row rows) k).
Proof. intros HW Hm Hk. eapply tri_bind; [apply (t_mnew row col rows HW Hm)|exact Hk]. Qed.
Ltac tmat := repeat (first [assumption | split; [reflexivity|] | constructor]).
Lemma t_scale_rows n i rcp mi : mat n n P (fst mi) /\ mat n n P (snd mi) -> P rcp ->
  T (fun mi => mat n n P (fst mi) /\ mat n n P (snd mi)) (scale_rows o n i rcp mi).
Proof.
  intros Hmi Hr. apply (tri_for_range D I (fun mi => mat n n P (fst mi) /\ mat n n P (snd mi))); [|exact Hmi].
  intros k [m v] _ [H1 H2]. cbn [fst snd] in *. repeat tstep. apply tri_ret. now split.
Qed.
Lemma t_elim_rows n i j a mi : mat n n P (fst mi) /\ mat n n P (snd mi) -> P a ->
  T (fun mi => mat n n P (fst mi) /\ mat n n P (snd mi)) (elim_rows o n i j a mi).
Proof.
  intros Hmi Hr. apply (tri_for_range D I (fun mi => mat n n P (fst mi) /\ mat n n P (snd mi))); [|exact Hmi].
  intros k [m v] _ [H1 H2]. cbn [fst snd] in *. repeat tstep. apply tri_ret. now split.
Qed.
Lemma t_inverse n m : 0 < n -> n < W c -> mat n n P m -> T (opt (mat n n P)) (inverse c d o n m).
Proof.
  intros H0 HW Hm. destruct n as [|[|[|[|n]]]]; [lia| | | |].
  - unfold inverse, inv1. tstep. destruct (o_is_zero o x); [now apply tri_ret|]. tstep.
    apply t_new_some; [exact HW|tmat|]. intros r Hr. now apply tri_ret.
  - unfold inverse, inv2. eapply tri_bind; [apply (t_det2 m Hm)|intros dt Hdt].
    destruct (o_is_zero o dt); [now apply tri_ret|]. repeat tstep.
    apply t_new_some; [exact HW|tmat|]. intros mm Hmm.
    eapply tri_bind; [apply (t_mscale 2 2 _ _ mm dt HW HW Kd Kc Hmm Hdt)|]. intros r Hr. now apply tri_ret.
  - unfold inverse, inv3. eapply tri_bind; [apply (t_det3 m Hm)|intros dt Hdt].
    destruct (o_is_zero o dt); [now apply tri_ret|]. repeat tms.
    apply t_new_some; [exact HW|tmat|]. intros mm Hmm.
    eapply tri_bind; [apply (t_mscale 3 3 _ _ mm dt HW HW Kd Kc Hmm Hdt)|]. intros r Hr. now apply tri_ret.
  - set (N := Datatypes.S (Datatypes.S (Datatypes.S (Datatypes.S n)))) in *.
    change (inverse c d o N m) with (inv_big c d o N m). clearbody N.
    unfold inv_big. eapply tri_bind; [apply (t_mclone N N m Hm)|]. intros m0 Hm0.
    eapply tri_bind; [apply (t_midentity N)|]. intros v0 Hv0.
    pose (R := fun mi : list (list A) * list (list A) => mat N N P (fst mi) /\ mat N N P (snd mi)).
    eapply (tri_bind D I (either R any)).
    + apply tri_for_range_ret; [|now split]. intros i mi _ Hmi. destruct Hmi as [Hm1 Hm2].
      eapply tri_bind; [apply (t_ix N _ i i Hm1)|]. intros dd Hdd. destruct (o_is_zero o dd); [now apply tri_ret|].
      tstep. eapply tri_bind; [apply t_scale_rows; [split; [exact Hm1|exact Hm2]|eassumption]|]. intros mi1 Hmi1.
      eapply (tri_bind D I R).
      * apply tri_for_range; [|exact Hmi1]. intros j mi2 _ Hmi2. destruct (_ =? _); [now apply tri_ret|].
        eapply tri_bind; [apply (t_ix N _ j i (proj1 Hmi2))|]. intros a Ha. now apply t_elim_rows.
      * intros mi2 Hmi2. now apply tri_ret.
    + intros [mi|u] H1; apply tri_ret; [exact (proj2 H1)|exact Logic.I].
Qed.
End Elem.
End Lib.

Section Lib2.
Context {S : Type} (D : Prop) (I : S -> Prop) (c : cfg).
Notation "'T'" := (tri D I).

Lemma s_enum {A} (Q : A -> Prop) n it : isafe D I False Q n it ->
  isafe D I False (fun p => fst p < n /\ Q (snd p)) n (enumerate it).
Proof.
  intros H. eapply isafe_weak; [exact (isafe_enumerate D I False Q n it H)|]. intros p [[[]|?] ?]. now split.
Qed.
Section Mat2.
Context {A : Type} (P : A -> Prop).
Lemma t_mall row col pred m : mat row col P m ->
  (forall i j x, i < row -> j < col -> P x -> T any (pred (i, j) x)) -> T any (mall row col pred m).
Proof.
  intros Hm Hp. apply (t_all D I (fun p => fst p < row /\ vec col P (snd p))).
  - apply s_enum. now apply s_viter.
  - intros [i r] [Hi Hr]. cbn in Hi, Hr. apply (t_all D I (fun p => fst p < col /\ P (snd p))).
    + apply s_enum. now apply s_viter.
    + intros [j x] [Hj Hx]. now apply Hp.
Qed.
Lemma t_many row col pred m : mat row col P m ->
  (forall i j x, i < row -> j < col -> P x -> T any (pred (i, j) x)) -> T any (many row col pred m).
Proof.
  intros Hm Hp. apply (t_any D I (fun p => fst p < row /\ vec col P (snd p))).
  - apply s_enum. now apply s_viter.
  - intros [i r] [Hi Hr]. cbn in Hi, Hr. apply (t_any D I (fun p => fst p < col /\ P (snd p))).
    + apply s_enum. now apply s_viter.
    + intros [j x] [Hj Hx]. now apply Hp.
Qed.
Lemma t_mmap {U} (PU : U -> Prop) (d : ety S A) (du : ety S U) row col f m :
  dsafe I d -> dsafe I du -> row < W c -> col < W c -> mat row col P m ->
  (forall i j x, i < row -> j < col -> P x -> T PU (f (i, j) x)) ->
  T (mat row col PU) (mmap c d du row col f m).
Proof.
  intros Hd Hdu H1 H2 Hm Hf. apply t_collect; [now apply dsafe_vec|].
  apply (isafe_imap _ _ _ _ _ _ _ _
    (s_enum (vec col P) row _ (isafe_into D I False (vec col P) c (vec_ety d) row m (dsafe_vec I d Hd) H1 Hm))).
  intros [i r] [Hi Hr]. cbn in Hi, Hr. apply t_collect; [exact Hdu|].
  apply (isafe_imap _ _ _ _ _ _ _ _ (s_enum P col _ (isafe_into D I False P c d col r Hd H2 Hr))).
  intros [j x] [Hj Hx]. now apply Hf.
Qed.
Lemma t_mapprox aeq row col a b : row < W c -> mat row col P a -> mat row col P b ->
  (forall x y, P x -> P y -> T any (aeq x y)) -> T any (mapprox_eq c aeq row col a b).
Proof.
  intros HW Ha Hb He. apply (t_fold D I any any); [|exact Logic.I|intros; now apply tri_ret].
  apply (isafe_imap _ _ _ _ _ _ _ _ (isafe_zip D I False False (vec col P) (vec col P) ref_ety row row _ _ (dsafe_ref I)
    (isafe_rr D I False (vec col P) c row a Ha HW) (isafe_rr D I False (vec col P) c row b Hb HW))).
  intros [ra rb] [Hra Hrb]. cbn in Hra, Hrb.
  apply (t_all D I (fun p => P (fst p) /\ P (snd p))); [|intros [x y] [Hx Hy]; now apply He].
  exact (isafe_zip D I False False P P ref_ety col col _ _ (dsafe_ref I) (s_viter D I P col ra Hra) (s_viter D I P col rb Hrb)).
Qed.

(** Ordering *)
Variable clone : A -> M S A.
Hypothesis Hcl : forall x, P x -> T P (clone x).
Lemma t_max_by comp n v : (forall x y, P x -> P y -> T any (comp x y)) -> vec n P v ->
  T P (vmax_by clone comp n v).
Proof.
  intros Hco [HL HF] s HI. unfold vmax_by. destruct v as [|x v]; cbn [next viter as_slice slice_iter i_next].
  - cbn. exact HI.
  - cbn -[for_each bind]. inversion HF as [|? ? Hx HF']; subst.
    assert (R : T P (r <- for_each (length (x :: v)) (slice_iter v) x (fun st v =>
                o <- comp v st ;; match o with Gt => ret v | _ => ret st end) ;; clone r)).
    { eapply (tri_bind D I P); [|exact Hcl].
      apply (tri_for_each D I False P P _ (FF D)) with (k := length v); [|now apply isafe_slice|right; cbn; lia|exact Hx].
      intros st y Hst Hy. eapply tri_bind; [apply (Hco y st Hy Hst)|]. intros [] _; now apply tri_ret. }
    exact (R s HI).
Qed.
Lemma t_mmax_by comp n m : (forall x y, P x -> P y -> T any (comp x y)) -> mat n n P m ->
  T P (mmax_by clone comp n m).
Proof.
  intros Hco Hm. unfold mmax_by. eapply (tri_bind D I (opt P)).
  - apply (t_fold D I (vec n P) (opt P)); [now apply s_viter|exact Logic.I|].
    intros st r Hst Hr. apply (t_fold D I P (opt P)); [now apply s_viter|exact Hst|].
    intros [st0|] x H0 Hx; [|now apply tri_ret].
    eapply tri_bind; [apply (Hco x st0 Hx H0)|]. intros [] _; now apply tri_ret.
  - intros st Hst. eapply tri_bind; [apply (tri_unwrap D I P st Hst)|exact Hcl].
Qed.
Lemma t_select (d : ety S A) cmp rep n it : dsafe I d -> (forall x y, P x -> P y -> T any (cmp x y)) ->
  isafe D I False P n it -> T (opt P) (select d cmp rep n it).
Proof.
  intros Hd Hco Hit.
  assert (OW : forall sel (it : iter S A) (s : S), dropok D I it -> I s ->
    match owning d sel (out_of_scope it (@Panic A)) s with (Ok x, s') => I s' /\ P x | (Panic, s') => I s' | (UB, _) => False | (Diverge, _) => D end).
  { intros sel it0 s Hdr HI. unfold owning. pose proof (tri_oos_panic D I (@any A) it0 Hdr s HI) as E.
    pose proof (tri_oos_panic D I P it0 Hdr s HI) as E'.
    destruct (out_of_scope it0 Panic s) as [[x| | |] s']; auto. split; [now apply Hd|apply E']. }
  assert (L : forall fuel k it sel, isafe D I False P k it -> k < fuel -> P sel ->
            T P (select_loop d cmp rep fuel it sel)).
  { induction fuel as [|fuel IH]; intros k it0 sel H0 Hk Hs s HI; [lia|]. cbn [select_loop].
    pose proof (isafe_next _ _ _ _ _ _ s H0 HI) as N. destruct (next (it0, s)) as [[[x|]| | |] [it' s']]; auto.
    - destruct N as (HI' & Hx & k' & [[]| ->] & H').
      specialize (Hco sel x Hs Hx s' HI'). destruct (cmp sel x s') as [[oc| | |] s'']; auto.
      + destruct Hco as [HI2 _]. destruct (rep oc).
        * apply (IH k' it' x H' ltac:(lia) Hx). now apply Hd.
        * apply (IH k' it' sel H' ltac:(lia) Hs). now apply Hd.
      + apply OW; [exact (isafe_drop _ _ _ _ _ _ H')|now apply Hd].
    - destruct N as [HI' Hdr]. now apply tri_oos.
    - destruct N as [HI' Hdr]. now apply OW. }
  intros s HI. unfold select. pose proof (isafe_next _ _ _ _ _ _ s Hit HI) as N.
  destruct (next (it, s)) as [[[x|]| | |] [it' s']]; auto.
  - destruct N as (HI' & Hx & k' & [[]| ->] & H').
    assert (R : T (opt P) (r <- select_loop d cmp rep (Datatypes.S k') it' x ;; ret (Some r))).
    { eapply tri_bind; [apply (L (Datatypes.S k') k' it' x H' (Nat.lt_succ_diag_r k') Hx)|]. intros r Hr. now apply tri_ret. }
    exact (R s' HI').
  - destruct N as [HI' Hdr]. now apply tri_oos.
  - destruct N as [HI' Hdr]. now apply tri_oos_panic.
Qed.
Lemma t_vselect cmp rep n v : (forall x y, P x -> P y -> T any (cmp x y)) -> vec n P v ->
  T P (vselect_m rep clone cmp n v).
Proof.
  intros Hco Hv. eapply tri_bind; [apply (t_select ref_ety cmp rep n _ (dsafe_ref I) Hco (s_viter D I P n v Hv))|].
  intros [x|] Hx; [|apply tri_panic]. eapply tri_bind; [apply Hcl, Hx|]. intros y Hy. now apply tri_ret.
Qed.
Lemma t_mselect (d : ety S A) cmp rep rep' n m : dsafe I d -> (forall x y, P x -> P y -> T any (cmp x y)) -> mat n n P m ->
  T P (o <- select d cmp rep n (imap (vselect_m rep' clone cmp n) (viter m)) ;; unwrap o).
Proof.
  intros Hd Hco Hm. eapply tri_bind; [|intros x Hx; apply (tri_unwrap D I P x Hx)].
  apply t_select; [exact Hd|exact Hco|].
  apply (isafe_imap _ _ _ _ _ _ _ _ (s_viter D I (vec n P) n m Hm)). intros r Hr. now apply t_vselect.
Qed.
Lemma t_clamp_one cmp mn mx x : (forall x y, P x -> P y -> T any (cmp x y)) -> P mn -> P mx -> P x ->
  T P (clamp_one clone cmp mn mx x).
Proof.
  intros Hco H1 H2 H3. unfold clamp_one, cmp_max_m, cmp_min_m.
  eapply (tri_bind D I P); [eapply tri_bind; [apply (Hco x mn H3 H1)|]; intros [] _; now apply tri_ret|].
  intros a Ha. eapply (tri_bind D I P); [eapply tri_bind; [apply (Hco mx a H2 Ha)|]; intros [] _; now apply tri_ret|].
  exact Hcl.
Qed.
End Mat2.
Lemma t_owning {X R} (Q : R -> Prop) (d : ety S X) x m : dsafe I d -> T Q m -> T Q (owning d x m).
Proof.
  intros Hd H s HI. unfold owning. specialize (H s HI). destruct (m s) as [[r| | |] s']; auto.
  destruct H. split; [now apply Hd|assumption].
Qed.
Lemma t_eq_loop {A B} (P : A -> Prop) (Q : B -> Prop) peq a b :
  (forall x y, P x -> Q y -> T any (peq x y)) -> Forall P a -> Forall Q b -> T any (slice_eq_loop peq a b).
Proof.
  intros H Ha. revert b. induction Ha as [|x a Hx Ha IH]; intros b Hb; cbn; [now apply tri_ret|].
  destruct Hb as [|y b Hy Hb]; [now apply tri_ret|]. eapply tri_bind; [apply (H x y Hx Hy)|].
  intros [] _; [now apply IH|now apply tri_ret].
Qed.
Lemma t_veq {A B} (P : A -> Prop) (Q : B -> Prop) peq n k a b :
  (forall x y, P x -> Q y -> T any (peq x y)) -> vec n P a -> vec k Q b -> T any (veq_m peq a b).
Proof.
  intros H [_ Ha] [_ Hb]. unfold veq_m, slice_eq_m, as_slice. destruct (_ =? _); [|now apply tri_ret].
  now apply (t_eq_loop P Q).
Qed.
End Lib2.

(** ** Formatting *)
Section FmtSafe.
Context {S : Type} (D : Prop) (I : S -> Prop) (c : cfg).
Notation "'T'" := (tri D I).
Variable w : str -> M S bool.
Hypothesis Hw : forall t, T any (w t).
Lemma anyI {A} (x : A) : any x.
Proof. exact Logic.I. Qed.
Lemma any_all {A} (l : list A) : Forall any l.
Proof. apply Forall_forall. intros; exact Logic.I. Qed.
Lemma t_try m k : T any m -> T any k -> T any (try_ m k).
Proof. intros H1 H2. eapply tri_bind; [exact H1|]. intros [] _; [exact H2|now apply tri_ret]. Qed.
Lemma t_entries {A} (P : A -> Prop) dfmt : (forall x, P x -> T any (dfmt x)) ->
  forall l b, Forall P l -> T any (list_entries w dfmt b l).
Proof.
  intros Hf. induction l as [|x l IH]; intros b HF; cbn; [now apply tri_ret|]. inversion HF; subst.
  apply t_try; [destruct b; [now apply tri_ret|apply Hw]|]. apply t_try; [now apply Hf|now apply IH].
Qed.
Lemma t_debug_list {A} (P : A -> Prop) dfmt l : (forall x, P x -> T any (dfmt x)) -> Forall P l ->
  T any (debug_list w dfmt l).
Proof. intros Hf HF. apply t_try; [apply Hw|]. apply t_try; [now apply (t_entries P)|apply Hw]. Qed.
Lemma t_vdebug {A} (P : A -> Prop) dfmt n v : (forall x, P x -> T any (dfmt x)) -> vec n P v ->
  T any (vdebug w dfmt v).
Proof. intros Hf [_ HF]. apply t_try; [apply Hw|]. now apply (t_debug_list P). Qed.
Lemma t_mdebug {A} (P : A -> Prop) dfmt row col m : (forall x, P x -> T any (dfmt x)) -> mat row col P m ->
  T any (mdebug c w dfmt row m).
Proof.
  intros Hf Hm. apply t_try; [apply Hw|]. eapply tri_bind; [apply tri_usz_sub|]. intros last _.
  apply t_try; [|apply Hw]. apply (t_all D I (fun p => fst p < row /\ vec col P (snd p))).
  - apply s_enum. now apply s_viter.
  - intros [i r] [_ [_ Hr]]. apply t_try; [now apply (t_debug_list P)|].
    destruct (_ =? _); [now apply tri_ret|apply Hw].
Qed.
Lemma t_pad k : T any (pad w k).
Proof.
  apply (t_all D I (fun i => 0 <= i < k)); [|intros; apply Hw].
  pose proof (isafe_range D I False 0 k) as H. now rewrite Nat.sub_0_r in H.
Qed.
Lemma t_vindex {A} (l : list A) i : T any (vindex l i).
Proof. apply tri_slice_index, any_all. Qed.
Ltac ts := match goal with
  | |- tri _ _ _ (bind (vindex _ _) _) => eapply tri_bind; [apply t_vindex|intros ? _]
  | |- tri _ _ _ (bind (usz_sub _ _ _) _) => eapply tri_bind; [apply tri_usz_sub|intros ? _]
  | |- tri _ _ _ (bind (usz_add _ _ _) _) => eapply tri_bind; [apply tri_usz_add|intros ? _]
  | |- tri _ _ _ (ret _) => apply tri_ret, anyI
  | |- tri _ _ _ (pad _ _) => apply t_pad
  | |- tri _ _ _ (w _) => apply Hw
  | |- tri _ _ _ (try_ _ _) => apply t_try
  end.
Lemma t_print_cell slen col ws n j cell_ : T any (print_cell c w slen col ws n j cell_).
Proof. destruct cell_ as [text maxlen]. unfold print_cell. repeat (ts; cbv zeta). Qed.
Lemma t_is_last row hs i n : T any (is_last c row hs i n).
Proof. unfold is_last. ts. destruct (_ =? _); repeat ts. Qed.
Lemma t_print_line slen row col ws hs i rw n : length rw = col ->
  T any (print_line c w slen row col ws hs i rw n).
Proof.
  intros HL. unfold print_line.
  eapply (tri_bind D I any). { destruct (_ && _); [ts|]. eapply tri_bind; [apply t_is_last|intros ? _; ts]. }
  intros ch _. ts; [ts|]. ts.
  - apply (t_all D I (fun p => fst p < col /\ any (snd p))).
    + apply s_enum. apply s_viter. split; [exact HL|apply any_all].
    + intros [j cl] _. apply t_print_cell.
  - eapply (tri_bind D I any). { destruct (_ && _); [ts|]. eapply tri_bind; [apply t_is_last|intros ? _; ts]. }
    intros e _. ts.
Qed.
Lemma t_print_rows slen row col ws hs ss : row < W c -> mat row col any ss ->
  T any (print_rows c w slen row col ws hs ss).
Proof.
  intros HW Hs. unfold print_rows. ts; [|ts].
  apply (t_all D I (fun p => fst p < row /\ vec col any (snd p))).
  - apply s_enum. apply isafe_into; [intros x s HI; exact (dsafe_all I pod_ety x s (fun _ _ H => H) HI)|exact HW|exact Hs].
  - intros [i rw] [_ [HL _]]. cbn in HL. ts.
    apply (t_all D I (fun k => 0 <= k < x)); [|intros k _; now apply t_print_line].
    pose proof (isafe_range D I False 0 x) as H. now rewrite Nat.sub_0_r in H.
Qed.
End FmtSafe.

Section DisplaySafe.
Context {S A : Type} (D : Prop) (P : A -> Prop) (c : cfg).
Variable w : str -> M S bool.
Variable tofmt : A -> M S str.
Hypothesis Hw : forall t, tri D any any (w t).
Hypothesis Hf : forall x, P x -> tri D any any (tofmt x).
Lemma t_measure slen row col m i j : mat row col P m ->
  tri D (@pI (list nat * list nat) S any any) any (measure slen tofmt m i j).
Proof.
  intros Hm. unfold measure.
  eapply tri_bind; [apply (t_mindex D _ P row col m (i, j) Hm)|]. intros x Hx.
  eapply tri_bind; [apply tri_lift, Hf, Hx|]. intros t _. cbv zeta.
  eapply tri_bind; [apply tri_self|]. intros [ws hs] _.
  eapply tri_bind; [apply t_vindex|]. intros wj _.
  eapply (tri_bind _ _ any).
  { destruct (_ <? _); [|now apply tri_ret]. eapply tri_weak; [apply (tri_slice_assign D _ any (length ws)); [split; [reflexivity|apply any_all]|exact Logic.I]|].
    intros; exact Logic.I. }
  intros ws' _. eapply tri_bind; [apply tri_set; exact Logic.I|]. intros _ _.
  eapply tri_bind; [apply t_vindex|]. intros hi _.
  eapply (tri_bind _ _ any).
  { destruct (_ <? _); [|now apply tri_ret]. eapply tri_weak; [apply (tri_slice_assign D _ any (length hs)); [split; [reflexivity|apply any_all]|exact Logic.I]|].
    intros; exact Logic.I. }
  intros hs' _. eapply tri_bind; [apply tri_set; exact Logic.I|]. intros _ _. now apply tri_ret.
Qed.
Lemma t_mdisplay slen row col m : row < W c -> col < W c -> mat row col P m ->
  tri D any any (mdisplay c w slen tofmt row col m).
Proof.
  intros H1 H2 Hm. unfold mdisplay.
  assert (V : forall n, tri D (@any S) any (vdefault c (@ref_ety S nat) n (ret 0))).
  { intros n. eapply tri_weak; [apply (t_vgenerate D any c any); [apply dsafe_ref|intros i _; now apply tri_ret]|].
    intros; exact Logic.I. }
  eapply tri_bind; [apply V|]. intros ws0 _. eapply tri_bind; [apply V|]. intros hs0 _.
  intros s _.
  assert (G : tri D (@pI (list nat * list nat) S any any) (mat row col any)
     (from_iter c (vec_ety pod_ety) row
        (imap (fun i => from_iter c pod_ety col (imap (fun j => measure slen tofmt m i j) (range 0 col))) (range 0 row)))).
  { assert (PD : forall {X} (I : (list nat * list nat) * S -> Prop), dsafe I (@pod_ety ((list nat * list nat) * S) X))
      by (intros X I x s0 HI; exact HI).
    apply (t_mgenerate D _ c any pod_ety (PD _ _) row col (fun ij => measure slen tofmt m (fst ij) (snd ij))).
    intros i j _ _. now apply (t_measure slen row col). }
  specialize (G ((ws0, hs0), s) (Logic.conj Logic.I Logic.I)). revert G.
  match goal with |- context [from_iter ?c' ?d' ?n' ?it' ?st'] => destruct (from_iter c' d' n' it' st') as [r [[ws hs] s']] end.
  destruct r as [ss| | |]; [intros [_ Hss]|intros _; exact Logic.I|auto|auto].
  exact (t_print_rows D any c w Hw slen row col ws hs ss H1 Hss s' Logic.I).
Qed.
End DisplaySafe.

(** ** diag, norm, conjugate *)
Section Rest.
Context {S A : Type} (D : Prop) (I : S -> Prop) (c : cfg) (P : A -> Prop) (d : ety S A).
Hypothesis Hd : dsafe I d.
Definition live (k : nat) (ii : into_iter_t A) : Prop :=
  exists pre rest, ii = after pre rest /\ length pre + length rest = k /\ Forall P rest.
Lemma live_new k v : vec k P v -> live k (into_iter k v).
Proof. intros [HL HF]. exists [], v. unfold after, into_iter; cbn. rewrite HL. auto. Qed.
Lemma t_ii_next k : k < W c -> tri D (pI (live k) I) (opt P) (ii_next_fn c d k).
Proof.
  intros HW [ii s] [(pre & rest & E & HL & HF) HI]. cbn in E, HI. subst ii k. destruct HF as [|x rest Hx HF].
  - cbn [length] in *. rewrite Nat.add_0_r in *. rewrite ii_next_none. repeat split; auto.
    exists pre, []. repeat split; auto; cbn; lia.
  - cbn [length] in *. rewrite ii_next_some by exact HW. repeat split; auto. exists (pre ++ [x]), rest. rewrite app_length. cbn.
    repeat split; auto; lia.
Qed.
Lemma t_ii_drop k ii : live k ii -> tri D I any (ii_drop d ii).
Proof. intros (pre & rest & -> & _ & _) s HI. rewrite ii_drop_after. split; [now apply dsafe_all|exact Logic.I]. Qed.
Lemma t_mdiag o row col k elems : k < W c -> P (o_zero o) -> vec k P elems ->
  tri D I (mat row col P) (mdiag c d o row col k elems).
Proof.
  intros HW Hz He s HI. unfold mdiag.
  assert (G : tri D (pI (live k) I) (mat row col P) (mgenerate c (lift_ety d) row col
        (fun '(i, j) => if i =? j then x <- ii_next_fn c d k ;; unwrap x else ret (o_zero o)))).
  { apply t_mgenerate; [now apply dsafe_lift|]. intros i j _ _. destruct (i =? j); [|now apply tri_ret].
    eapply tri_bind; [apply (t_ii_next k HW)|]. intros x Hx. now apply tri_unwrap. }
  specialize (G (into_iter k elems, s) (Logic.conj (live_new k elems He) HI)). unfold vnew.
  match goal with |- context [mgenerate ?c' ?d' ?n' ?n2' ?f' ?st'] => destruct (mgenerate c' d' n' n2' f' st') as [r [ii s']] end.
  destruct r as [m| | |]; auto.
  - destruct G as [[Hl HI'] Hm]. cbn in Hl, HI'.
    exact (tri_seq D I (mat row col P) _ _ (t_ii_drop k ii Hl) (tri_ret D I _ m Hm) s' HI').
  - destruct G as [Hl HI']. cbn in Hl, HI'.
    exact (tri_seq D I (mat row col P) _ _ (t_ii_drop k ii Hl) (tri_panic D I _) s' HI').
Qed.
End Rest.

(** ** The iterators of a matrix, under any history of calls *)
Section Hist.
Context {S : Type} (D : Prop) (I : S -> Prop) (c : cfg).
Lemma t_item {X A} (J : X -> Prop) (Q : A -> Prop) (m : M (X * S) (option A)) :
  tri D (pI J I) (opt Q) m -> tri D (pI J I) (out_ok Q) (item m).
Proof. intros H. eapply tri_bind; [exact H|]. intros [x|] Hx; apply tri_ret; exact Hx. Qed.
Lemma t_num {X A} (J : X -> Prop) (Q : A -> Prop) (m : X -> M S nat) :
  (forall x, J x -> tri D I any (m x)) -> tri D (pI J I) (out_ok Q) (it <- self ;; num (lift (m it))).
Proof.
  intros H. eapply tri_bind; [apply tri_self|]. intros x Hx. eapply tri_bind; [apply tri_lift, H, Hx|].
  intros k _. now apply tri_ret.
Qed.
Lemma t_hint {X A} (J : X -> Prop) (Q : A -> Prop) (m : X -> M S (nat * option nat)) :
  (forall x, J x -> tri D I any (m x)) -> tri D (pI J I) (out_ok Q) (it <- self ;; hint (lift (m it))).
Proof.
  intros H. eapply tri_bind; [apply tri_self|]. intros x Hx. eapply tri_bind; [apply tri_lift, H, Hx|].
  intros k _. now apply tri_ret.
Qed.
Lemma t_history {X A} (J : X -> Prop) (Q : A -> Prop) (step : qop -> M (X * S) (qout A)) ops :
  (forall op, tri D (pI J I) (out_ok Q) (step op)) -> tri D (pI J I) (Forall (out_ok Q)) (run_history step ops).
Proof.
  intros H. induction ops as [|op ops IH]; cbn [run_history]; [now apply tri_ret|].
  eapply tri_bind; [apply H|]. intros o Ho. eapply tri_bind; [exact IH|]. intros os Hos. apply tri_ret. now constructor.
Qed.
Definition inside (n : nat) (cu : cursor) : Prop := cback cu <= n.
Lemma t_cur_len cu : tri D I any (cur_len c cu).
Proof. apply tri_usz_sub. Qed.
Lemma t_cur_hint cu : tri D I any (cur_size_hint c cu).
Proof. eapply tri_bind; [apply t_cur_len|]. intros; now apply tri_ret. Qed.
Lemma t_nth {A} (n k : nat) (Q : A -> Prop) (nx : M (cursor * S) (option A)) :
  tri D (pI (inside n) I) (opt Q) nx ->
  tri D (pI (inside n) I) (opt Q)
    (it <- self ;; f <- usz_add c (cfront it) k ;; set_self (Cursor f (cback it)) ;;; nx).
Proof.
  intros H. eapply tri_bind; [apply tri_self|]. intros it Hit. eapply tri_bind; [apply tri_usz_add|]. intros f _.
  eapply tri_seq; [now apply tri_set|exact H].
Qed.
Ltac tgo := match goal with
  | |- tri _ _ _ (bind self _) => eapply tri_bind; [apply tri_self|]; let it := fresh "it" in let H := fresh "Hit" in intros it H
  | |- tri _ _ _ (bind (debug_assert _ _) _) => eapply tri_seq; [apply tri_dbg|]
  | |- tri _ _ _ (bind (usz_add _ _ _) _) => eapply tri_bind; [apply tri_usz_add|]; let f := fresh "f" in intros f _
  end.
Section Rows.
Context {A : Type} (P : A -> Prop) (row col : nat) (m : list (list A)) (d : ety S A) (clone : A -> M S A).
Hypothesis (Hm : mat row col P m) (Hd : dsafe I d) (Hcl : forall x, P x -> tri D I P (clone x)).
Lemma t_sub1 (J : cursor -> Prop) (n : nat) : 0 < n -> tri D (pI J I) (fun b => b = n - 1) (usz_sub c n 1).
Proof. intros H. unfold usz_sub. destruct (Nat.leb_spec 1 n); [now apply tri_ret|lia]. Qed.
Lemma t_row i : i < row -> tri D (pI (inside row) I) (vec col P) (vget_unchecked c row m i).
Proof. intros Hi. now apply (tri_vget _ _ (vec col P)). Qed.
Lemma t_rr_next : tri D (pI (inside row) I) (opt (vec col P)) (rr_next c row m).
Proof.
  unfold rr_next. do 2 tgo. unfold inside in Hit. destruct (Nat.ltb_spec (cfront it) (cback it)); [|now apply tri_ret].
  cbv zeta. tgo. eapply tri_seq; [now apply tri_set|]. eapply tri_bind; [apply t_row; lia|]. intros r Hr. now apply tri_ret.
Qed.
Lemma t_rr_back : tri D (pI (inside row) I) (opt (vec col P)) (rr_next_back c row m).
Proof.
  unfold rr_next_back. do 2 tgo. unfold inside in Hit. destruct (Nat.ltb_spec (cfront it) (cback it)); [|now apply tri_ret].
  eapply tri_bind; [apply t_sub1; lia|]. intros b ->.
  eapply tri_seq; [apply tri_set; unfold inside; cbn; lia|].
  eapply tri_bind; [apply t_row; lia|]. intros r Hr. now apply tri_ret.
Qed.
Lemma t_rr_step op : tri D (pI (inside row) I) (out_ok (vec col P)) (rr_step c row m op).
Proof.
  destruct op; cbn [rr_step].
  - apply t_item, t_rr_next.
  - apply t_item, t_rr_back.
  - apply t_item, t_nth, t_rr_next.
  - apply t_item, t_rr_back.
  - apply t_num. intros; apply t_cur_len.
  - apply t_hint. intros; apply t_cur_hint.
Qed.
Lemma t_sidx i : tri D (pI (inside row) I) (vec col P) (slice_index m i).
Proof. apply tri_slice_index, Hm. Qed.
Lemma t_ri_next : tri D (pI (inside row) I) (opt (vec col P)) (ri_next c col m d clone).
Proof.
  unfold ri_next. tgo. destruct (Nat.ltb_spec (cfront it) (cback it)); [|now apply tri_ret]. cbv zeta.
  eapply tri_bind; [apply t_sidx|]. intros r Hr. eapply tri_bind; [apply tri_lift, (t_vclone D I c P); assumption|]. intros v Hv.
  tgo. eapply tri_seq; [now apply tri_set|]. now apply tri_ret.
Qed.
Lemma t_ri_back : tri D (pI (inside row) I) (opt (vec col P)) (ri_next_back c col m d clone).
Proof.
  unfold ri_next_back. tgo. destruct (Nat.ltb_spec (cfront it) (cback it)); [|now apply tri_ret]. cbv zeta.
  eapply tri_bind; [apply tri_usz_sub|]. intros i _.
  eapply tri_bind; [apply t_sidx|]. intros r Hr. eapply tri_bind; [apply tri_lift, (t_vclone D I c P); assumption|]. intros v Hv.
  eapply tri_bind; [apply t_sub1; lia|]. intros b ->. unfold inside in *.
  eapply tri_seq; [apply tri_set; cbn; lia|]. now apply tri_ret.
Qed.
Lemma t_ri_step op : tri D (pI (inside row) I) (out_ok (vec col P)) (ri_step c row col m d clone op).
Proof.
  destruct op; cbn [ri_step].
  - apply t_item, t_ri_next.
  - apply t_item, t_ri_back.
  - apply t_item, t_nth, t_ri_next.
  - apply t_item, t_ri_back.
  - apply t_num. intros; apply tri_usz_sub.
  - apply t_hint. intros. eapply tri_bind; [apply tri_usz_sub|]. intros; now apply tri_ret.
Qed.
Lemma t_collect_col j : j < col -> tri D I (vec row P) (collect_col c row m d clone j).
Proof.
  intros Hj. apply t_collect; [exact Hd|].
  apply (isafe_imap _ _ _ _ _ _ _ _ (s_viter D I (vec col P) row m Hm)). intros r [HL HF].
  eapply tri_bind; [|exact Hcl]. apply tri_get_unchecked; [exact HF|]. unfold as_slice. now rewrite HL.
Qed.
Lemma t_ci_next : tri D (pI (inside col) I) (opt (vec row P)) (ci_next c row col m d clone).
Proof.
  unfold ci_next. do 2 tgo. unfold inside in Hit. destruct (Nat.ltb_spec (cfront it) (cback it)); [|now apply tri_ret]. cbv zeta.
  tgo. eapply tri_seq; [now apply tri_set|]. eapply tri_bind; [apply tri_lift, t_collect_col; lia|].
  intros v Hv. now apply tri_ret.
Qed.
Lemma t_ci_back : tri D (pI (inside col) I) (opt (vec row P)) (ci_next_back c row m d clone).
Proof.
  unfold ci_next_back. tgo. unfold inside in Hit. destruct (Nat.ltb_spec (cfront it) (cback it)); [|now apply tri_ret]. cbv zeta.
  eapply tri_bind; [apply t_sub1; lia|]. intros b ->.
  eapply tri_seq; [apply tri_set; unfold inside; cbn; lia|].
  eapply tri_bind; [apply t_sub1; lia|]. intros i ->.
  eapply tri_bind; [apply tri_lift, t_collect_col; lia|]. intros v Hv. now apply tri_ret.
Qed.
Lemma t_ci_step op : tri D (pI (inside col) I) (out_ok (vec row P)) (ci_step c row col m d clone op).
Proof.
  destruct op; cbn [ci_step].
  - apply t_item, t_ci_next.
  - apply t_item, t_ci_back.
  - apply t_item, t_nth, t_ci_next.
  - apply t_item, t_ci_back.
  - apply t_num. intros; apply tri_usz_sub.
  - apply t_hint. intros. eapply tri_bind; [apply tri_usz_sub|]. intros; now apply tri_ret.
Qed.
(** A column handed out by the column iterator, and its own history. *)
Definition incol (p : nat * cursor) : Prop := fst p < col /\ inside row (snd p).
Lemma t_cin_new j : j < col -> tri D I incol (cin_new c row col j).
Proof. intros Hj. eapply tri_seq; [apply tri_dbg|]. apply tri_ret. split; cbn; [exact Hj|apply le_n]. Qed.
Lemma t_cr_next : tri D (pI (inside col) I) (opt incol) (cr_next c row col).
Proof.
  unfold cr_next. do 2 tgo. unfold inside in Hit. destruct (Nat.ltb_spec (cfront it) (cback it)); [|now apply tri_ret]. cbv zeta.
  tgo. eapply tri_seq; [now apply tri_set|]. eapply tri_bind; [apply tri_lift, t_cin_new; lia|]. intros r Hr. now apply tri_ret.
Qed.
Lemma t_cr_back : tri D (pI (inside col) I) (opt incol) (cr_next_back c row col).
Proof.
  unfold cr_next_back. do 2 tgo. unfold inside in Hit. destruct (Nat.ltb_spec (cfront it) (cback it)); [|now apply tri_ret].
  eapply tri_bind; [apply t_sub1; lia|]. intros b ->.
  eapply tri_seq; [apply tri_set; unfold inside; cbn; lia|].
  eapply tri_bind; [apply tri_lift, t_cin_new; lia|]. intros r Hr. now apply tri_ret.
Qed.
Lemma t_cr_step op : tri D (pI (inside col) I) (out_ok incol) (cr_step c row col op).
Proof.
  destruct op; cbn [cr_step].
  - apply t_item, t_cr_next.
  - apply t_item, t_cr_back.
  - apply t_item, t_nth, t_cr_next.
  - apply t_item, t_cr_back.
  - apply t_num. intros; apply t_cur_len.
  - apply t_hint. intros; apply t_cur_hint.
Qed.
Lemma t_cell i j : i < row -> j < col ->
  tri D (pI incol I) (opt P) (r <- vget_unchecked c row m i ;; x <- vget_unchecked c col r j ;; ret (Some x)).
Proof.
  intros Hi Hj. eapply tri_bind; [apply (tri_vget _ _ (vec col P) c row m i Hm Hi)|]. intros r Hr.
  eapply tri_bind; [apply (tri_vget _ _ P c col r j Hr Hj)|]. intros x Hx. now apply tri_ret.
Qed.
Lemma t_cin_next : tri D (pI incol I) (opt P) (cin_next c row col m).
Proof.
  unfold cin_next. eapply tri_bind; [apply tri_self|]. intros [j it] [Hj Hit]. cbn in Hj, Hit. unfold inside in Hit.
  destruct (Nat.ltb_spec (cfront it) (cback it)); [|now apply tri_ret]. cbv zeta.
  tgo. eapply tri_seq; [apply tri_set; now split|]. apply t_cell; lia.
Qed.
Lemma t_cin_back : tri D (pI incol I) (opt P) (cin_next_back c row col m).
Proof.
  unfold cin_next_back. eapply tri_bind; [apply tri_self|]. intros [j it] [Hj Hit]. cbn in Hj, Hit. unfold inside in Hit.
  destruct (Nat.ltb_spec (cfront it) (cback it)); [|now apply tri_ret]. cbv zeta.
  eapply (tri_bind _ _ (fun b => b = cback it - 1)).
  { unfold usz_sub. destruct (Nat.leb_spec 1 (cback it)); [now apply tri_ret|lia]. }
  intros b ->. eapply tri_seq; [apply tri_set; split; unfold inside; cbn; lia|]. apply t_cell; lia.
Qed.
Lemma t_cin_step op : tri D (pI incol I) (out_ok P) (cin_step c row col m op).
Proof.
  destruct op; cbn [cin_step].
  - apply t_item, t_cin_next.
  - apply t_item, t_cin_back.
  - apply t_item. unfold cin_nth. eapply tri_bind; [apply tri_self|]. intros [j it] Hit. tgo.
    eapply tri_seq; [apply tri_set; exact Hit|apply t_cin_next].
  - apply t_item, t_cin_back.
  - apply (t_num incol P (fun it => cin_len c it)). intros; apply t_cur_len.
  - apply (t_hint incol P (fun it => cin_size_hint c it)). intros; apply t_cur_hint.
Qed.
End Rows.
End Hist.
