(** * Transposes: solvability by the left kernel, and least squares over the rationals: C115. *)
From Coq Require Import ZArith QArith Qcanon.
From Verif Require Import Base BaseLemmas IntModel RatModel FieldIface RatProofs UtilModel MatModel AlgModel
  LinSpec RrefSpec MatProofs AlgProofs Ideal NoOverflow LinFacts Farkas PropMat PropLin PropSolve.
From Coq Require Import Field_theory Ring Field.
Local Open Scope nat_scope.

(** ** Linear algebra *)
Section Facts.
Context {K : MathField}.
Add Field Kf44 : (kth K).
Notation vec := (nat -> K).
Notation fmat := (nat -> nat -> K).

Definition dotn (n : nat) (v w : vec) : K := sumn n (fun i => kmul (v i) (w i)).
Lemma dotn_ext n (v v' w w' : vec) : (forall i, i < n -> v i = v' i) -> (forall i, i < n -> w i = w' i) -> dotn n v w = dotn n v' w'.
Proof. intros H1 H2. apply sumn_ext. intros i Hi. rewrite H1, H2 by exact Hi. reflexivity. Qed.
(** (A x) . v = x . (A^T v) *)
Lemma dotn_adjoint n m (A : fmat) (x v : vec) : dotn n v (mvec m A x) = dotn m x (mvec n (mtrans A) v).
Proof.
  unfold dotn, mvec, mtrans. rewrite (sumn_ext n _ (fun i => sumn m (fun l => kmul (kmul (v i) (A i l)) (x l)))).
  2:{ intros i Hi. rewrite <- sumn_mul_l. apply sumn_ext. intros. ring. }
  rewrite sumn_swap. apply sumn_ext. intros l Hl. rewrite <- sumn_mul_l. apply sumn_ext. intros. ring.
Qed.
Lemma dotn_zero_r n (v w : vec) : (forall i, i < n -> w i = k0) -> dotn n v w = k0.
Proof. intros H. apply sumn_zero'. intros i Hi. rewrite (H i Hi). ring. Qed.

(** every matrix has an echelon form: run the algorithm over the field itself *)
Lemma ech_exists n m (A : fmat) : exists P B r piv, invertible n P /\ meq n m (mmul n P A) B /\ ech n m r piv B.
Proof.
  assert (R : mrep (ideal_spec K) (from_fn n m (A : nat -> nat -> ideal_impl K)) n m A) by (apply (mrep_from_fn (ideal_spec K)); intros; exact I).
  pose proof (row_echelon_ok (ideal_spec K) (ideal_stab K) (ideal_stab_spec K) _ _ _ _ R) as H.
  apply safe_nov in H; [|apply nov_row_echelon; apply ideal_nov].
  destruct H as (s & _ & B & r & piv & (_ & P & _ & IP & M) & E). exists P, B, r, piv. auto.
Qed.

Lemma fredholm n m (A : fmat) (b : vec) : (exists x, solves n m A x b) <-> forall v, in_kernel m n (mtrans A) v -> dotn n v b = k0.
Proof.
  split.
  - intros (x & Hx) v Hv. rewrite (dotn_ext n v v b (mvec m A x)); [|reflexivity|intros; symmetry; auto]. rewrite dotn_adjoint. apply dotn_zero_r. exact Hv.
  - intros H. destruct (ech_exists n m A) as (P & B & r & piv & IP & M & E). apply (ech_solvable n m r piv P A B b IP M E).
    intros i L Hi. change (dotn n (mrow P i) b = k0). apply H. intros l Hl.
    transitivity (mmul n P A i l); [|rewrite (M i l Hi Hl); apply (ech_zero _ _ _ _ _ E); assumption].
    unfold mvec, mtrans, mrow, mmul. apply sumn_ext. intros. ring.
Qed.
Lemma fredholm_basis n m (A : fmat) (b : vec) vs : is_basis n (in_kernel m n (mtrans A)) vs ->
  (exists x, solves n m A x b) <-> Forall (fun v => dotn n v b = k0) vs.
Proof.
  intros (_ & FV & SP). rewrite fredholm. split.
  - intros H. eapply Forall_impl; [|exact FV]. exact H.
  - intros H v Hv. destruct (SP v Hv) as (c & Hc). rewrite (dotn_ext n v (lcomb vs c) b b); [|exact Hc|reflexivity].
    unfold dotn, lcomb. rewrite (sumn_ext n _ (fun i => sumn (length vs) (fun k => kmul (c k) (kmul (nth k vs vzero i) (b i))))).
    2:{ intros i Hi. rewrite <- sumn_mul_r. apply sumn_ext. intros. ring. }
    rewrite sumn_swap. apply sumn_zero'. intros k Hk. rewrite sumn_mul_l. rewrite Forall_forall in H.
    pose proof (H _ (nth_In vs vzero Hk)) as G. unfold dotn in G. rewrite G. ring.
Qed.
Lemma mvec_sub m (A : fmat) (x y : vec) i : mvec m A (fun j => ksub (x j) (y j)) i = ksub (mvec m A x i) (mvec m A y i).
Proof. unfold mvec. rewrite <- sumn_sub. apply sumn_ext. intros. ring. Qed.
End Facts.

(** ** Over the rationals *)
Section Gram.
Notation K := QcField.
Add Field Kf45 : (kth QcField).
Notation vec := (nat -> QcField).
Notation fmat := (nat -> nat -> QcField).
Definition qle (x y : QcField) : Prop := Qcle x y.
Lemma qle_refl x : qle x x. Proof. apply Qcle_refl. Qed.
Lemma qle_add0 (x y : QcField) : qle k0 y -> qle x (kadd x y).
Proof. intros H. unfold qle. replace (x : Qc) with (x + 0)%Qc at 1 by apply Qcplus_0_r. apply Qcplus_le_compat; [apply Qcle_refl|exact H]. Qed.
Lemma Qc_cancel (r q : Qc) : (r + q <= r)%Qc -> (0 <= q)%Qc -> q = 0%Qc.
Proof.
  intros H P. apply Qcle_antisym; [|exact P]. apply (Qcplus_le_compat (- r) (- r) _ _ (Qcle_refl _)) in H.
  replace (- r + (r + q))%Qc with q in H by ring. replace (- r + r)%Qc with 0%Qc in H by ring. exact H.
Qed.
Lemma qle_cancel (r q : QcField) : qle (kadd r q) r -> qle k0 q -> q = k0.
Proof. exact (Qc_cancel r q). Qed.
Lemma dot_self_nonneg n (v : vec) : qle k0 (dotn n v v).
Proof.
  unfold dotn. induction n as [|n IH]; cbn [sumn]; [apply Qcle_refl|].
  change (qle (Qcplus 0%Qc 0%Qc) (kadd (sumn n (fun i : nat => kmul (v i) (v i))) (kmul (v n) (v n)))).
  apply Qcplus_le_compat; [exact IH|apply Qc_sq_nonneg].
Qed.
Lemma dot_self_zero n (v : vec) : dotn n v v = k0 -> forall i, i < n -> v i = k0.
Proof.
  induction n as [|n IH]; intros H i Hi; [lia|]. unfold dotn in H. cbn [sumn] in H.
  destruct (Qc_add_zero _ _ (dot_self_nonneg n v) (Qc_sq_nonneg (v n)) H) as [H1 H2].
  destruct (Nat.eq_dec i n) as [->|N]; [|apply IH; [exact H1|lia]].
  apply Qcmult_integral in H2. destruct H2; assumption.
Qed.

Lemma gram_kernel n m (A : fmat) (x : vec) : in_kernel m m (mmul n (mtrans A) A) x <-> in_kernel n m A x.
Proof.
  split.
  - intros H. refine (dot_self_zero n (mvec m A x) _). rewrite dotn_adjoint. apply dotn_zero_r. intros l Hl. rewrite <- mvec_mmul. apply H. exact Hl.
  - intros H i Hi. rewrite mvec_mmul. unfold mvec at 1. apply sumn_zero'. intros l Hl. rewrite (H l Hl). ring.
Qed.
Definition residual (n m : nat) (A : fmat) (b x : vec) : QcField := dotn n (fun i => ksub (mvec m A x i) (b i)) (fun i => ksub (mvec m A x i) (b i)).
Lemma normal_solvable n m (A : fmat) (b : vec) : exists x, solves m m (mmul n (mtrans A) A) x (mvec n (mtrans A) b).
Proof.
  apply fredholm. intros v Hv. rewrite (dotn_adjoint m n (mtrans A) b v). apply dotn_zero_r.
  change (in_kernel n m A v). apply gram_kernel. intros i Hi. rewrite <- (Hv i Hi). apply sumn_ext. intros l Hl. f_equal.
  unfold mtrans, mmul. apply sumn_ext. intros. ring.
Qed.
Lemma normal_iff n m (A : fmat) (b x : vec) : solves m m (mmul n (mtrans A) A) x (mvec n (mtrans A) b) <->
  forall j, j < m -> mvec n (mtrans A) (fun i => ksub (mvec m A x i) (b i)) j = k0.
Proof.
  split; intros H j Hj; specialize (H j Hj); rewrite mvec_mmul in *.
  - rewrite mvec_sub, H. ring.
  - rewrite mvec_sub in H. transitivity (kadd (ksub (mvec n (mtrans A) (mvec m A x) j) (mvec n (mtrans A) b j)) (mvec n (mtrans A) b j)); [ring|rewrite H; ring].
Qed.
(** Pythagoras *)
Lemma residual_split n m (A : fmat) (b x y : vec) : solves m m (mmul n (mtrans A) A) x (mvec n (mtrans A) b) ->
  residual n m A b y = kadd (residual n m A b x) (dotn n (mvec m A (fun j => ksub (y j) (x j))) (mvec m A (fun j => ksub (y j) (x j)))).
Proof.
  intros H. rewrite normal_iff in H. set (d := fun j => ksub (y j) (x j)). set (r := fun i => ksub (mvec m A x i) (b i)) in *.
  assert (Z : dotn n r (mvec m A d) = k0) by (rewrite dotn_adjoint; apply dotn_zero_r; exact H).
  assert (E : forall i, ksub (mvec m A y i) (b i) = kadd (r i) (mvec m A d i)) by (intros i; unfold r, d; rewrite mvec_sub; ring).
  transitivity (kadd (kadd (residual n m A b x) (dotn n (mvec m A d) (mvec m A d))) (kadd (dotn n r (mvec m A d)) (dotn n r (mvec m A d)))).
  2:{ rewrite Z. ring. }
  unfold residual. fold r. unfold dotn. rewrite <- !sumn_add. apply sumn_ext. intros i Hi. rewrite E. ring.
Qed.
Lemma normal_minimal n m (A : fmat) (b x : vec) : solves m m (mmul n (mtrans A) A) x (mvec n (mtrans A) b) <->
  forall y, qle (residual n m A b x) (residual n m A b y).
Proof.
  split.
  - intros H y. rewrite (residual_split n m A b x y H). apply qle_add0. apply dot_self_nonneg.
  - intros H. destruct (normal_solvable n m A b) as (x0 & H0). pose proof (residual_split n m A b x0 x H0) as E.
    assert (Z : in_kernel n m A (fun j => ksub (x j) (x0 j))).
    { refine (dot_self_zero n (mvec m A (fun j => ksub (x j) (x0 j))) _). specialize (H x0). rewrite E in H.
      exact (qle_cancel _ _ H (dot_self_nonneg _ _)). }
    apply normal_iff. rewrite normal_iff in H0. intros j Hj. rewrite <- (H0 j Hj). apply sumn_ext. intros i Hi. f_equal. f_equal.
    pose proof (Z i Hi) as G. rewrite mvec_sub in G. transitivity (kadd (ksub (mvec m A x i) (mvec m A x0 i)) (mvec m A x0 i)); [ring|rewrite G; ring].
Qed.
End Gram.

(** ** C115 for exact fields *)
Section PropGram.
Context {F : FieldImpl} {K : MathField} (FS : FieldSpec F K) (T : StabImpl F) (TS : StabSpec FS T).
Add Field Kf46 : (kth K).
Notation mat := (mat F).
Notation val := (mden FS).
Notation okm := (okm FS).
Notation vec_of := (PropLin.vec_of FS).

Lemma transpose_val a n m t : okm n m a -> mat_transpose a = Ok t -> okm m n t /\ meq m n (val t) (mtrans (val a)).
Proof.
  intros W E. apply okm_mrep in W. destruct (transpose_ok FS a n m _ W) as (t' & E' & R). rewrite E in E'. injection E' as <-.
  apply mrep_okm. exact R.
Qed.
Lemma mul_val a b c n k m : okm n k a -> okm k m b -> mat_mul a b = Ok c -> okm n m c /\ meq n m (val c) (mmul k (val a) (val b)).
Proof.
  intros Wa Wb E. apply okm_mrep in Wa, Wb. pose proof (safe_val _ _ _ (mat_mul_ok FS a b n k m _ _ Wa Wb) E) as R. apply mrep_okm. exact R.
Qed.
Lemma dot_val v b n y : okm n 1 v -> okm n 1 b -> mat_dot v b = Ok y -> fwf FS y /\ den FS y = dotn n (vec_of v) (vec_of b).
Proof. intros Wv Wb E. apply okm_mrep in Wv, Wb. exact (safe_val _ _ _ (dot_vec_ok FS v b n _ _ Wv Wb) E). Qed.
Lemma kernel_of_transpose a n m t s vs : okm n m a -> mat_transpose a = Ok t -> rref_of T t s -> compute_kernel T s = Ok vs ->
  Forall (okm n 1) vs /\ is_basis n (in_kernel m n (mtrans (val a))) (map vec_of vs) /\ form_nullity T s = Ok (length vs).
Proof.
  intros W Et H Ev. destruct (transpose_val a n m t W Et) as [Wt Vt].
  pose proof (safe_val _ _ _ (C54_kernel FS T TS t m n s Wt H) Ev) as (OV & B & N). split; [exact OV|]. split; [|exact N].
  apply (is_basis_iff n (in_kernel m n (val t))); [|exact B].
  intros w. split; intros G i Hi; rewrite <- (G i Hi); apply (mvec_ext m n); try exact Hi; try (intros; reflexivity); [apply meq_sym|]; exact Vt.
Qed.

(** the system is solvable iff the right side is orthogonal to the kernel vectors of the transpose *)
Theorem C115_solvable : forall a n m t s vs b ys, okm n m a -> mat_transpose a = Ok t -> rref_of T t s -> compute_kernel T s = Ok vs ->
  okm n 1 b -> mapM (fun v => mat_dot v b) vs = Ok ys ->
  ((exists x, solves n m (val a) x (vec_of b)) <-> Forall (fun y => feqb y f0 = true) ys).
Proof.
  intros a n m t s vs b ys W Et H Ev Wb Ey. destruct (kernel_of_transpose a n m t s vs W Et H Ev) as (OV & B & _).
  rewrite (fredholm_basis n m (val a) (vec_of b) (map vec_of vs) B). apply mapM_Ok in Ey. clear Ev B. rewrite Forall_map.
  revert OV. induction Ey as [|v y vs ys E _ IH]; intros OV; [split; constructor|]. inversion OV as [|? ? Wv OV']; subst.
  destruct (dot_val v b n y Wv Wb E) as [Wy Dy]. pose proof (eqb0 _ _ FS y Wy) as Z. rewrite !Forall_cons_iff, (IH OV').
  split; intros [H1 H2]; (split; [|exact H2]); [apply Z; rewrite Dy; exact H1|rewrite <- Dy; apply Z; exact H1].
Qed.
(** the kernel vectors of the transpose are orthogonal to the range vectors, and there are as many of both together as there are rows *)
Theorem C115_orthogonal : forall a n m t s s' order vs ws, okm n m a -> rref_of T a s -> range_order_ok T s order -> compute_range a order = Ok ws ->
  mat_transpose a = Ok t -> rref_of T t s' -> compute_kernel T s' = Ok vs ->
  length vs + length ws = n /\
  forall v w y, In v vs -> In w ws -> mat_dot v w = Ok y -> feqb y f0 = true.
Proof.
  intros a n m t s s' order vs ws W H RO Ew Et H' Ev. destruct (kernel_of_transpose a n m t s' vs W Et H' Ev) as (OV & BV & NV).
  destruct (C55_range FS T TS a n m s order W H RO) as (ws' & Ew' & OW & BW & RW). rewrite Ew in Ew'. injection Ew' as <-.
  destruct (transpose_val a n m t W Et) as [Wt Vt]. split.
  - destruct (C53_nullity FS T TS t m n s' Wt (or_intror H')) as (r & Er & En & _). rewrite NV in En. injection En as En.
    destruct (C53_rank FS T TS t m n s' Wt (or_intror H')) as (r' & Er' & _ & Ln & _). rewrite Er in Er'. injection Er' as <-.
    pose proof (C72_rank_transpose FS T TS a n m t s s' _ _ W Et (or_intror H) (or_intror H') RW Er). lia.
  - intros v w y Hv Hw E. rewrite Forall_forall in OV, OW. destruct (dot_val v w n y (OV v Hv) (OW w Hw) E) as [Wy Dy].
    apply (eqb0 _ _ FS); [exact Wy|]. rewrite Dy. destruct BV as (_ & FV & _), BW as (_ & FW & _). rewrite Forall_map, Forall_forall in FV, FW.
    apply (proj1 (fredholm n m (val a) (vec_of w))); [|apply FV; exact Hv]. apply solves_colspace. apply FW. exact Hw.
Qed.
End PropGram.

(** ** Least squares over [Rational] *)
(** a client: the square of the distance of a*x and b *)
Definition squared_error (a b x : mat (rat_impl Debug)) : res rat :=
  ax <- mat_mul a x ;; m1 <- @fsub (rat_impl Debug) f0 f1 ;; nb <- mat_mul_scalar b m1 ;; d <- mat_add ax nb ;; mat_frobenius d.
Notation rokm := (PropLin.okm rat_spec).
Notation rval := (mden rat_spec).
Notation rvec := (PropLin.vec_of rat_spec).

Lemma squared_error_val a b x n m e : rokm n m a -> rokm n 1 b -> rokm m 1 x -> squared_error a b x = Ok e ->
  den rat_spec e = residual n m (rval a) (rvec b) (rvec x).
Proof.
  intros Wa Wb Wx E. unfold squared_error in E. apply bind_Ok in E. destruct E as (ax & Eax & E). apply bind_Ok in E. destruct E as (m1 & Em & E).
  apply bind_Ok in E. destruct E as (nb & En & E). apply bind_Ok in E. destruct E as (d & Ed & E).
  pose proof (safe_val _ _ _ (sub_ok _ _ rat_spec f0 f1 (wf0 _ _ rat_spec) (wf1 _ _ rat_spec)) Em) as [Wm Dm].
  rewrite (den0 _ _ rat_spec), (den1 _ _ rat_spec) in Dm. apply okm_mrep in Wa, Wb, Wx.
  pose proof (safe_val _ _ _ (mat_mul_ok rat_spec _ _ _ _ _ _ _ Wa Wx) Eax) as Rax.
  pose proof (safe_val _ _ _ (mul_scalar_ok rat_spec _ _ _ _ _ Wb Wm) En) as Rn.
  pose proof (safe_val _ _ _ (add_mat_ok rat_spec _ _ _ _ _ _ Rax Rn) Ed) as Rd.
  pose proof (mrep_mwf _ _ _ _ _ Rd) as (Wd & R1 & C1 & _).
  rewrite (proj2 (C47_dot_norm rat_spec d d Wd Wd C1 C1 eq_refl)) in E.
  pose proof (safe_val _ _ _ (dot_vec_ok rat_spec d d n _ _ Rd Rd) E) as [_ ->]. unfold residual, dotn. apply sumn_ext. intros i Hi.
  assert (G : forall u v : QcField, @kadd QcField u (kmul v (den rat_spec m1)) = ksub u v).
  { intros u v. rewrite Dm. change (u + v * (Q2Qc 0 - Q2Qc 1) = u - v)%Qc. ring. }
  rewrite G. reflexivity.
Qed.

(** t = transpose of a, g = t*a: same rank and same kernel as a *)
Theorem C115_gram : forall a n m t g s sg, rokm n m a -> mat_transpose a = Ok t -> mat_mul t a = Ok g ->
  echelon_of RT a s \/ rref_of RT a s -> echelon_of RT g sg \/ rref_of RT g sg ->
  form_rank RT sg = form_rank RT s /\ forall x, in_kernel m m (rval g) x <-> in_kernel n m (rval a) x.
Proof.
  intros a n m t g s sg W Et Eg H Hg. destruct (transpose_val rat_spec a n m t W Et) as [Wt Vt].
  destruct (mul_val rat_spec t a g m n m Wt W Eg) as [Wg Vg].
  assert (KE : forall x, in_kernel m m (rval g) x <-> in_kernel n m (rval a) x).
  { intros x. rewrite <- (gram_kernel n m (rval a) x). assert (M : meq m m (rval g) (mmul n (mtrans (rval a)) (rval a))).
    { eapply meq_trans; [exact Vg|]. apply mmul_ext; [exact Vt|apply meq_refl]. }
    split; intros G i Hi; rewrite <- (G i Hi); apply (mvec_ext m m); try exact Hi; try (intros; reflexivity); [apply meq_sym|]; exact M. }
  split; [|exact KE].
  destruct (C53_nullity rat_spec RT rat_stab_spec a n m s W H) as (r & Er & _ & D).
  destruct (C53_rank rat_spec RT rat_stab_spec a n m s W H) as (r' & Er' & _ & Lm & _). rewrite Er in Er'. injection Er' as <-.
  destruct (C53_nullity rat_spec RT rat_stab_spec g m m sg Wg Hg) as (q & Eq & _ & Dg).
  destruct (C53_rank rat_spec RT rat_stab_spec g m m sg Wg Hg) as (q' & Eq' & _ & Lq & _). rewrite Eq in Eq'. injection Eq' as <-.
  rewrite Er, Eq. f_equal. pose proof (dimension_unique m _ _ _ (dimension_iff m _ _ _ KE Dg) D). lia.
Qed.
(** c = t*b: g x = c is solvable, and its solutions are the x with the least squared error *)
Theorem C115_least_squares : forall a n m t g b c, rokm n m a -> mat_transpose a = Ok t -> mat_mul t a = Ok g -> rokm n 1 b -> mat_mul t b = Ok c ->
  (exists x, solves m m (rval g) x (rvec c)) /\
  (forall x, solves m m (rval g) x (rvec c) <-> forall y, qle (residual n m (rval a) (rvec b) x) (residual n m (rval a) (rvec b) y)) /\
  forall x y c' e e', rokm m 1 x -> rokm m 1 y -> mat_mul g x = Ok c' -> meq m 1 (rval c') (rval c) -> squared_error a b x = Ok e -> squared_error a b y = Ok e' ->
    qle (den rat_spec e) (den rat_spec e').
Proof.
  intros a n m t g b c W Et Eg Wb Ec. destruct (transpose_val rat_spec a n m t W Et) as [Wt Vt].
  destruct (mul_val rat_spec t a g m n m Wt W Eg) as [Wg Vg]. destruct (mul_val rat_spec t b c m n 1 Wt Wb Ec) as [Wc Vc].
  assert (M : meq m m (rval g) (mmul n (mtrans (rval a)) (rval a))).
  { eapply meq_trans; [exact Vg|]. apply mmul_ext; [exact Vt|apply meq_refl]. }
  assert (C : forall i, i < m -> rvec c i = mvec n (mtrans (rval a)) (rvec b) i).
  { intros i Hi. unfold PropLin.vec_of at 1. rewrite (Vc i 0 Hi ltac:(lia)). unfold mmul, mvec. apply sumn_ext. intros l Hl. rewrite (Vt i l Hi Hl). reflexivity. }
  assert (SE : forall x, solves m m (rval g) x (rvec c) <-> solves m m (mmul n (mtrans (rval a)) (rval a)) x (mvec n (mtrans (rval a)) (rvec b))).
  { intros x. split; intros G i Hi.
    - rewrite <- (C i Hi), <- (G i Hi). apply (mvec_ext m m); try exact Hi; [apply meq_sym; exact M|reflexivity].
    - rewrite (C i Hi), <- (G i Hi). apply (mvec_ext m m); try exact Hi; [exact M|reflexivity]. }
  assert (MI : forall x, solves m m (rval g) x (rvec c) <-> forall y, qle (residual n m (rval a) (rvec b) x) (residual n m (rval a) (rvec b) y)).
  { intros x. rewrite SE. apply normal_minimal. }
  split; [|split; [exact MI|]].
  - destruct (normal_solvable n m (rval a) (rvec b)) as (x & Hx). exists x. apply SE. exact Hx.
  - intros x y c' e e' Wx Wy Ex Q Ee Ee'. rewrite (squared_error_val a b x n m e W Wb Wx Ee), (squared_error_val a b y n m e' W Wb Wy Ee').
    apply MI. intros i Hi. destruct (mul_val rat_spec g x c' m m 1 Wg Wx Ex) as [_ V]. unfold PropLin.vec_of at 2. rewrite <- (Q i 0 Hi ltac:(lia)), (V i 0 Hi ltac:(lia)). reflexivity.
Qed.

(** the line through (0,1), (1,2), (2,4) with the least squares: 5/6 + 3/2 x, squared error 1/6 *)
Definition ex_fit := ex_mat 3 2 [(1,1);(0,1);(1,1);(1,1);(1,1);(2,1)]%Z.
Definition ex_obs := ex_mat 3 1 [(1,1);(2,1);(4,1)]%Z.
Definition ex_fit_t := ex_mat 2 3 [(1,1);(1,1);(1,1);(0,1);(1,1);(2,1)]%Z.
Definition ex_fit_g := ex_mat 2 2 [(3,1);(3,1);(3,1);(5,1)]%Z.
Definition ex_fit_x := ex_mat 2 1 [(5,6);(3,2)]%Z.
Definition ex_fit_rref : form (F:=rat_impl Debug) :=
  mkform (ex_mat 3 3 [(0,1);(2,1);(-1,1);(0,1);(-1,1);(1,1);(1,1);(-2,1);(1,1)]%Z) (ex_mat 3 2 [(1,1);(0,1);(0,1);(1,1);(0,1);(0,1)]%Z).
Definition ex_fit_g_rref : form (F:=rat_impl Debug) :=
  mkform (ex_mat 2 2 [(5,6);(-9,18);(-1,2);(1,2)]%Z) (ex_mat 2 2 [(1,1);(0,1);(0,1);(1,1)]%Z).
Definition ex_fit_t_rref : form (F:=rat_impl Debug) :=
  mkform (ex_mat 2 2 [(1,1);(-1,1);(0,1);(1,1)]%Z) (ex_mat 2 3 [(1,1);(0,1);(-1,1);(0,1);(1,1);(2,1)]%Z).
Example C115_ex_ok : rokm 3 2 ex_fit /\ rokm 3 1 ex_obs /\ rokm 2 1 ex_fit_x.
Proof. split; [|split]; (split; [apply ex_mat_ok; reflexivity|split; reflexivity]). Qed.
Example C115_ex_gram : mat_transpose ex_fit = Ok ex_fit_t /\ mat_mul ex_fit_t ex_fit = Ok ex_fit_g /\ rref_of RT ex_fit ex_fit_rref /\
  rref_of RT ex_fit_g ex_fit_g_rref /\ rref_of RT ex_fit_t ex_fit_t_rref /\ form_rank RT ex_fit_g_rref = Ok 2.
Proof.
  split; [reflexivity|]. split; [reflexivity|]. split; [apply ex_rref_of; reflexivity|]. split; [apply ex_rref_of; reflexivity|].
  split; [apply ex_rref_of; reflexivity|reflexivity].
Qed.
(** the kernel of the transpose is spanned by (1, -2, 1): the observations are not on a line *)
Example C115_ex_solvable : compute_kernel RT ex_fit_t_rref = Ok [ex_mat 3 1 [(1,1);(-2,1);(1,1)]%Z] /\
  mapM (fun v => mat_dot v ex_obs) [ex_mat 3 1 [(1,1);(-2,1);(1,1)]%Z] = Ok [mkrat 1 1] /\
  mapM (fun v => mat_dot v (ex_mat 3 1 [(1,1);(3,1);(5,1)]%Z)) [ex_mat 3 1 [(1,1);(-2,1);(1,1)]%Z] = Ok [mkrat 0 1].
Proof. split; [reflexivity|]. split; reflexivity. Qed.
Example C115_ex_orthogonal : range_order_ok RT ex_fit_rref [1; 0] /\
  compute_range ex_fit [1; 0] = Ok [ex_mat 3 1 [(0,1);(1,1);(2,1)]%Z; ex_mat 3 1 [(1,1);(1,1);(1,1)]%Z].
Proof.
  split; [|reflexivity]. exists [0; 1]. split; [reflexivity|]. split; [repeat constructor; simpl; intuition discriminate|]. intros c. simpl. tauto.
Qed.
Example C115_ex_least_squares : mat_mul ex_fit_t ex_obs = Ok (ex_mat 2 1 [(7,1);(10,1)]%Z) /\
  mat_mul ex_fit_g ex_fit_x = Ok (ex_mat 2 1 [(28,4);(40,4)]%Z) /\
  squared_error ex_fit ex_obs ex_fit_x = Ok (mkrat 1944 11664) /\ squared_error ex_fit ex_obs (ex_mat 2 1 [(1,1);(1,1)]%Z) = Ok (mkrat 1 1).
Proof. repeat (split; [reflexivity|]). reflexivity. Qed.
Example C115_ex_normal : meq 2 1 (rval (ex_mat 2 1 [(28,4);(40,4)]%Z)) (rval (ex_mat 2 1 [(7,1);(10,1)]%Z)).
Proof. intros i j Hi Hj. destruct i as [|[|i]], j as [|j]; try lia; apply Qc_is_canon; reflexivity. Qed.

Print Assumptions C115_solvable.
Print Assumptions C115_orthogonal.
Print Assumptions C115_gram.
Print Assumptions C115_least_squares.
