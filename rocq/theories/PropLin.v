(** * Properties C49-C56 and C69-C74: LU decomposition, echelon forms, rank, kernel and range.

    [FS] says that the field type computes exactly, [TS] that its comparison with zero is exact and that
    stability_cmp puts zero last.  [safe x Q]: [x] returns a value satisfying [Q] or panics with
    an arithmetic overflow; every other panic is excluded. *)
From Verif Require Import Base BaseLemmas IntModel RatModel FieldIface RatProofs UtilModel MatModel AlgModel
  LinSpec RrefSpec MatProofs AlgProofs Ideal NoOverflow LinFacts PropMat.
From Coq Require Import Field_theory Ring Field.
Local Open Scope nat_scope.

Section PropLin.
Context {F : FieldImpl} {K : MathField} (FS : FieldSpec F K) (T : StabImpl F) (TS : StabSpec FS T).
Add Field Kf16 : (kth K).
Notation mat := (mat F).
Notation fmat := (nat -> nat -> K).
Notation val := (mden FS).
Notation ok := (mwf FS).

(** an n x m matrix *)
Definition okm (n m : nat) (a : mat) : Prop := ok a /\ mrows a = n /\ mcols a = m.
Lemma mrep_okm a n m A : mrep FS a n m A -> okm n m a /\ meq n m (val a) A.
Proof. intros R. apply mrep_mwf in R. destruct R as (W & R & C & V). repeat split; try assumption; apply W. Qed.
Lemma okm_mrep a n m : okm n m a -> mrep FS a n m (val a).
Proof. intros (W & <- & <-). apply mwf_mrep. exact W. Qed.

(** ** C49, C50 *)
(** exactly one one in every row and column *)
Definition is_permutation_matrix (n : nat) (P : fmat) : Prop :=
  exists sigma : nat -> nat, (forall i, i < n -> sigma i < n) /\
    (forall i j, i < n -> j < n -> sigma i = sigma j -> i = j) /\
    forall i j, i < n -> j < n -> P i j = if sigma i =? j then k1 else k0.

Lemma permutation_matrix_trans n P : is_permutation_matrix n P -> meq n n (mmul n (mtrans P) P) mid.
Proof.
  intros (s & S1 & S2 & S3) i j Hi Hj. unfold mmul, mtrans, mid.
  assert (Hk : exists k, k < n /\ s k = i).
  { assert (IN : incl (map s (seq 0 n)) (seq 0 n)).
    { intros x Hx. apply in_map_iff in Hx. destruct Hx as (k & <- & Hk). apply in_seq in Hk. apply in_seq. specialize (S1 k). lia. }
    assert (ND : NoDup (map s (seq 0 n))).
    { apply nodup_map_inj; [apply seq_NoDup|]. intros x y Hx Hy. apply in_seq in Hx, Hy. apply S2; lia. }
    assert (IN2 : incl (seq 0 n) (map s (seq 0 n))).
    { apply NoDup_length_incl; [exact ND|rewrite map_length; lia|exact IN]. }
    assert (In i (map s (seq 0 n))) as H by (apply IN2; apply in_seq; lia).
    apply in_map_iff in H. destruct H as (k & E & Hk). apply in_seq in Hk. exists k. split; [lia|exact E]. }
  destruct Hk as (k & Hk & Ek). rewrite (sumn_delta n k).
  - rewrite !S3 by assumption. rewrite Ek, Nat.eqb_refl. destruct (i =? j); ring.
  - exact Hk.
  - intros l Hl N. rewrite S3 by assumption. destruct (Nat.eqb_spec (s l) i) as [E|]; [|ring].
    exfalso. apply N. apply S2; try assumption. congruence.
Qed.

Theorem C49_lu : forall a n m, okm n m a ->
  safe (mat_lu T a) (fun plu => let '(p, l, u) := plu in
    okm n n p /\ okm n n l /\ okm n m u /\
    is_permutation_matrix n (val p) /\
    meq n m (mmul n (val p) (val a)) (mmul n (val l) (val u)) /\
    meq n m (val a) (mmul n (mtrans (val p)) (mmul n (val l) (val u)))).
Proof.
  intros a n m W. apply okm_mrep in W. eapply safe_mono; [apply (lu_ok FS T TS _ _ _ _ W)|].
  intros [[p l] u] (pv & L & U & r & piv & IP & Rp & Rl & Ru & _ & _ & _ & E).
  apply mrep_okm in Rp, Rl, Ru. destruct Rp as [Wp Vp], Rl as [Wl Vl], Ru as [Wu Vu].
  assert (PM : is_permutation_matrix n (val p)).
  { exists (fun i => nth i pv 0). destruct IP as (_ & P1 & P2). split; [exact P1|]. split; [exact P2|].
    intros i j Hi Hj. rewrite Vp by assumption. reflexivity. }
  assert (E1 : meq n m (mmul n (val p) (val a)) (mmul n (val l) (val u))).
  { eapply meq_trans; [apply mmul_ext; [exact Vp|apply meq_refl]|]. eapply meq_trans; [exact E|].
    apply mmul_ext; apply meq_sym; assumption. }
  repeat (split; [assumption|]).
  eapply meq_trans; [|apply mmul_ext; [apply meq_refl|exact E1]].
  intros i j Hi Hj. rewrite <- mmul_assoc.
  rewrite (mmul_ext n n m _ _ (val a) (val a) (permutation_matrix_trans n _ PM) (meq_refl _ _ _) i j Hi Hj).
  symmetry. apply (mmul_id_l n m); assumption.
Qed.
Theorem C50_lu_shapes : forall a n m, okm n m a ->
  safe (mat_lu T a) (fun plu => let '(p, l, u) := plu in
    (forall i j, i < j -> j < n -> val l i j = k0) /\ (forall i, i < n -> val l i i <> k0) /\
    (exists r piv, ech n m r piv (val u)) /\
    mat_is_lower l = Ok true /\ mat_is_upper u = Ok true).
Proof.
  intros a n m W. apply okm_mrep in W. eapply safe_mono; [apply (lu_ok FS T TS _ _ _ _ W)|].
  intros [[p l] u] (pv & L & U & r & piv & IP & Rp & Rl & Ru & LL & LD & E & _).
  pose proof (proj2 (mrep_okm _ _ _ _ Rl)) as Vl. pose proof (proj2 (mrep_okm _ _ _ _ Ru)) as Vu.
  split; [intros i j H1 H2; rewrite Vl by lia; apply LL; assumption|].
  split; [intros i Hi; rewrite Vl by lia; apply LD; assumption|].
  split; [exists r, piv; apply (ech_ext n m r piv U); [apply meq_sym; exact Vu|exact E]|].
  split.
  - destruct (is_lower_ok FS _ _ _ _ Rl) as (t & -> & H). rewrite (proj2 H); [reflexivity|].
    intros i j Hi Hj Hlt. apply LL; assumption.
  - destruct (is_upper_ok FS _ _ _ _ Ru) as (t & -> & H). rewrite (proj2 H); [reflexivity|].
    intros i j Hi Hj Hlt. destruct (Nat.lt_ge_cases i r) as [Hr|Hr].
    + apply (ech_left _ _ _ _ _ E); [exact Hr|].
      assert (LB : forall k, k < r -> k <= piv k).
      { induction k; intros Hk; [lia|]. pose proof (ech_inc _ _ _ _ _ E k (S k) ltac:(lia) Hk). specialize (IHk ltac:(lia)). lia. }
      specialize (LB i Hr). lia.
    + apply (ech_zero _ _ _ _ _ E); assumption.
Qed.

(** ** C51, C52 *)
(** [s] holds an invertible p and a b with p * a = b *)
Definition row_equivalent (n m : nat) (a : mat) (s : form) : Prop :=
  okm n n (fp s) /\ okm n m (fb s) /\ invertible n (val (fp s)) /\
  meq n m (mmul n (val (fp s)) (val a)) (val (fb s)).
Lemma form_ok_row_equivalent n m a s B : form_ok FS n m (val a) s B -> row_equivalent n m a s /\ meq n m (val (fb s)) B.
Proof.
  intros (R & P & RP & IP & M). apply mrep_okm in R, RP. destruct R as [W V], RP as [WP VP].
  split; [|exact V]. split; [exact WP|]. split; [exact W|]. split.
  - apply (invertible_ext n P); [apply meq_sym; exact VP|exact IP].
  - eapply meq_trans; [apply mmul_ext; [exact VP|apply meq_refl]|]. eapply meq_trans; [exact M|]. apply meq_sym. exact V.
Qed.
Lemma row_equivalent_form_ok n m a s : row_equivalent n m a s -> form_ok FS n m (val a) s (val (fb s)).
Proof.
  intros (W1 & W2 & I & M). apply okm_mrep in W1, W2. split; [exact W2|]. exists (val (fp s)). auto.
Qed.

Theorem C51_row_echelon : forall a n m, okm n m a ->
  safe (mat_row_echelon T a) (fun s => row_equivalent n m a s /\ exists r piv, ech n m r piv (val (fb s))).
Proof.
  intros a n m W. apply okm_mrep in W. eapply safe_mono; [apply (row_echelon_ok FS T TS _ _ _ _ W)|].
  intros s (B & r & piv & FO & E). apply form_ok_row_equivalent in FO. destruct FO as [RE V].
  split; [exact RE|]. exists r, piv. apply (ech_ext n m r piv B); [apply meq_sym; exact V|exact E].
Qed.
(** to_rref keeps the pivots of any echelon form of [a] *)
Theorem C52_to_rref : forall a n m s r piv, row_equivalent n m a s -> ech n m r piv (val (fb s)) ->
  safe (form_to_rref T s) (fun s' => row_equivalent n m a s' /\ rref n m r piv (val (fb s'))).
Proof.
  intros a n m s r piv RE E. apply row_equivalent_form_ok in RE.
  eapply safe_mono; [apply (to_rref_ok FS T TS _ _ _ _ _ _ _ RE E)|].
  intros s' (B & FO & R). apply form_ok_row_equivalent in FO. destruct FO as [RE' V]. split; [exact RE'|].
  split; [apply (ech_ext n m r piv B); [apply meq_sym; exact V|apply R]|].
  intros i k H1 H2. pose proof (ech_le _ _ _ _ _ (proj1 R)). pose proof (ech_lt _ _ _ _ _ (proj1 R) k H2).
  rewrite V by lia. apply R; assumption.
Qed.

(** the forms reachable by the public API *)
Definition echelon_of (a : mat) (s : form) : Prop := mat_row_echelon T a = Ok s.
Definition rref_of (a : mat) (s : form) : Prop := exists s0, echelon_of a s0 /\ form_to_rref T s0 = Ok s.

Theorem C52_rref : forall a n m s, okm n m a -> rref_of a s ->
  row_equivalent n m a s /\ exists r piv, rref n m r piv (val (fb s)).
Proof.
  intros a n m s W (s0 & E0 & E1). pose proof (safe_val _ _ _ (C51_row_echelon a n m W) E0) as (RE & r & piv & E).
  pose proof (safe_val _ _ _ (C52_to_rref a n m s0 r piv RE E) E1) as (RE' & R). split; [exact RE'|]. exists r, piv. exact R.
Qed.
Lemma form_of a n m s : okm n m a -> echelon_of a s \/ rref_of a s ->
  row_equivalent n m a s /\ exists r piv, ech n m r piv (val (fb s)).
Proof.
  intros W [E|R]; [exact (safe_val _ _ _ (C51_row_echelon a n m W) E)|].
  destruct (C52_rref a n m s W R) as (RE & r & piv & RR). split; [exact RE|]. exists r, piv. apply RR.
Qed.

(** ** C53 *)
Theorem C53_rank : forall a n m s, okm n m a -> echelon_of a s \/ rref_of a s ->
  exists r, form_rank T s = Ok r /\ r <= n /\ r <= m /\
    dimension n (in_colspace n m (val a)) r /\ dimension m (in_rowspace n m (val a)) r.
Proof.
  intros a n m s W H. destruct (form_of a n m s W H) as (RE & r & piv & E). exists r.
  pose proof (row_equivalent_form_ok _ _ _ _ RE) as FO. destruct RE as (_ & _ & I & M).
  split; [apply (form_rank_ok FS T TS _ _ _ _ _ _ _ FO E)|]. split; [apply (ech_le _ _ _ _ _ E)|].
  split; [apply (ech_le_cols FS _ _ _ _ _ E) || apply (ech_le_cols _ _ _ _ _ E)|].
  split; [eapply basis_dimension; [apply (ech_col_basis n m r piv _ _ _ E I M)|rewrite !map_length; apply seq_length]|].
  eapply basis_dimension; [apply (ech_row_basis n m r piv _ _ _ E I M)|rewrite !map_length; apply seq_length].
Qed.
Theorem C53_nullity : forall a n m s, okm n m a -> echelon_of a s \/ rref_of a s ->
  exists r, form_rank T s = Ok r /\ form_nullity T s = Ok (m - r) /\
    dimension m (in_kernel n m (val a)) (m - r).
Proof.
  intros a n m s W H. destruct (form_of a n m s W H) as (RE & r & piv & E). exists r.
  pose proof (row_equivalent_form_ok _ _ _ _ RE) as FO. destruct RE as (_ & _ & I & M).
  split; [apply (form_rank_ok FS T TS _ _ _ _ _ _ _ FO E)|].
  split; [apply (form_nullity_ok FS T TS _ _ _ _ _ _ _ FO E)|].
  destruct (ech_ker_basis n m r piv _ _ _ E I M) as (ws & B & L). eapply basis_dimension; eassumption.
Qed.

(** ** C54, C55 *)
(** the vector a column matrix stands for *)
Definition vec_of (v : mat) : nat -> K := fun i => val v i 0.

Lemma basis_ext n (P : (nat -> K) -> Prop) vs ws : (forall v w : nat -> K, (forall i, i < n -> v i = w i) -> P v -> P w) ->
  Forall2 (fun v w => okm n 1 v /\ forall i, i < n -> vec_of v i = w i) vs ws -> is_basis n P ws ->
  is_basis n P (map vec_of vs).
Proof.
  intros HP H (I & FW & S).
  assert (L : length vs = length ws) by (apply Forall2_len in H; exact H).
  assert (LC : forall c i, i < n -> lcomb (map vec_of vs) c i = lcomb ws c i).
  { intros c i Hi. unfold lcomb. rewrite map_length, L. apply sumn_ext. intros k Hk. f_equal.
    rewrite <- L in Hk. rewrite (nth_indep _ _ (vec_of (mat_zero 0 0))) by (rewrite map_length; exact Hk).
    rewrite map_nth. destruct (Forall2_nth _ _ _ (mat_zero 0 0) vzero k H Hk) as [_ G]. apply G; exact Hi. }
  split; [|split].
  - intros c Hc k Hk. rewrite map_length, L in Hk. apply I; [|exact Hk]. intros i Hi. rewrite <- LC by exact Hi. auto.
  - apply Forall_forall. intros w Hw. apply in_map_iff in Hw. destruct Hw as (v & <- & Hv).
    destruct (In_nth _ _ (mat_zero 0 0) Hv) as (k & Hk & <-).
    destruct (Forall2_nth _ _ _ (mat_zero 0 0) vzero k H Hk) as [_ G].
    apply (HP (nth k ws vzero)); [intros; symmetry; apply G; assumption|].
    rewrite Forall_forall in FW. apply FW. apply nth_In. lia.
  - intros w Hw. destruct (S w Hw) as (c & Hc). exists c. intros i Hi. rewrite LC by exact Hi. auto.
Qed.

Lemma in_kernel_ext n m (A : fmat) (v w : nat -> K) : (forall i, i < m -> v i = w i) -> in_kernel n m A v -> in_kernel n m A w.
Proof.
  intros H HV i Hi. rewrite <- (HV i Hi). symmetry. apply (mvec_ext n m); [apply meq_refl|exact H|exact Hi].
Qed.
Theorem C54_kernel : forall a n m s, okm n m a -> rref_of a s ->
  safe (compute_kernel T s) (fun vs => Forall (okm m 1) vs /\
    is_basis m (in_kernel n m (val a)) (map vec_of vs) /\ form_nullity T s = Ok (length vs)).
Proof.
  intros a n m s W H. destruct (C52_rref a n m s W H) as (RE & r & piv & R).
  pose proof (row_equivalent_form_ok _ _ _ _ RE) as FO. destruct RE as (_ & _ & I & M).
  eapply safe_mono; [apply (compute_kernel_ok FS T TS _ _ _ _ _ _ _ FO R)|]. intros vs H2.
  assert (H3 : Forall2 (fun v w => okm m 1 v /\ forall i, i < m -> vec_of v i = w i) vs (ker_list m r piv (val (fb s)))).
  { clear - H2. induction H2 as [|v w vs ws Hv _ IH]; constructor; [|exact IH].
    apply mrep_okm in Hv. destruct Hv as [W V]. split; [exact W|]. intros i Hi. apply V; lia. }
  split; [clear - H3; induction H3 as [|v w vs ws [Hv _] _ IH]; constructor; assumption|]. split.
  - apply (basis_ext _ _ _ (ker_list m r piv (val (fb s)))); [|exact H3|].
    + intros v w. apply in_kernel_ext.
    + apply (is_basis_iff m (in_kernel n m (val (fb s)))); [|apply (ker_basis n m r piv); exact R].
      intros w. symmetry. apply (kernel_iff n m (val (fp s))); assumption.
  - rewrite (form_nullity_ok FS T TS _ _ _ _ _ _ _ FO (proj1 R)). f_equal. apply Forall2_len in H2. rewrite H2.
    unfold ker_list. rewrite map_length. pose proof (free_count n m r piv _ R). lia.
Qed.
(** in terms of the API: multiplying a kernel vector gives entries that equal ZERO *)
Theorem C54_kernel_mul : forall a n m s vs v x, okm n m a -> rref_of a s -> compute_kernel T s = Ok vs -> In v vs ->
  mat_mul a v = Ok x -> forall e, In e (ments x) -> feqb e f0 = true.
Proof.
  intros a n m s vs v x W H E Hv Ex e He.
  pose proof (safe_val _ _ _ (C54_kernel a n m s W H) E) as (OV & (_ & KV & _) & _).
  rewrite Forall_forall in OV. specialize (OV v Hv). destruct OV as (Wv & Rv & Cv).
  destruct W as (Wa & Ra & Ca).
  pose proof (safe_val _ _ _ (C47_mul FS a v Wa Wv ltac:(congruence)) Ex) as ((Sx & Wx) & Rx & Cx & Vx).
  rewrite Forall_forall in Wx. apply (eqb0 _ _ FS); [apply Wx; exact He|].
  destruct (In_nth _ _ f0 He) as (k & Hk & <-). rewrite Sx, Rx, Cx in Hk.
  destruct (idx_split _ _ _ Hk) as (i & j & Hi & Hj & ->). rewrite <- Cx.
  change (val x i j = k0). rewrite Vx by assumption.
  rewrite Forall_forall in KV. specialize (KV (vec_of v) (in_map _ _ _ Hv) i ltac:(lia)).
  assert (j = 0) by lia. subst j. unfold mvec in KV. unfold mmul. rewrite Ca. exact KV.
Qed.
Theorem C55_range : forall a n m s order, okm n m a -> rref_of a s -> range_order_ok T s order ->
  exists vs, compute_range a order = Ok vs /\ Forall (okm n 1) vs /\
    is_basis n (in_colspace n m (val a)) (map vec_of vs) /\ form_rank T s = Ok (length vs).
Proof.
  intros a n m s order W H (bound & Eb & ND & IN). destruct (C52_rref a n m s W H) as (RE & r & piv & R).
  pose proof (row_equivalent_form_ok _ _ _ _ RE) as FO. pose proof RE as (_ & WB & I & M).
  apply okm_mrep in WB. rewrite (bound_variables_ok FS T TS _ _ _ _ _ _ WB (proj1 R)) in Eb. inversion Eb; subst bound.
  assert (IN' : forall j, In j order <-> is_piv r piv j = true).
  { intros j. rewrite IN, is_piv_true, in_map_iff. split; intros (i & H1 & H2).
    - exists i. apply in_seq in H2. split; [lia|exact H1].
    - exists i. split; [exact H2|apply in_seq; lia]. }
  apply okm_mrep in W as RA.
  destruct (compute_range_ok FS a n m _ order RA) as (vs & E & H2).
  { intros c Hc. apply IN', is_piv_true in Hc. destruct Hc as (i & Hi & <-). apply (ech_lt _ _ _ _ _ (proj1 R)). exact Hi. }
  exists vs. split; [exact E|].
  assert (H3 : Forall2 (fun v w => okm n 1 v /\ forall i, i < n -> vec_of v i = w i) vs (map (mcol (val a)) order)).
  { clear - H2. induction H2 as [|v w vs ws Hv _ IH]; constructor; [|exact IH].
    apply mrep_okm in Hv. destruct Hv as [W V]. split; [exact W|]. intros i Hi. apply V; lia. }
  split; [clear - H3; induction H3 as [|v w vs ws [Hv _] _ IH]; constructor; assumption|]. split.
  - apply (basis_ext _ _ _ (map (mcol (val a)) order)); [|exact H3|].
    + intros v w Hvw (c & Hc). exists c. intros i Hi. rewrite <- Hvw by exact Hi. auto.
    + apply (range_basis n m r piv _ (val (fb s)) (val (fp s))); assumption.
  - rewrite (form_rank_ok FS T TS _ _ _ _ _ _ _ FO (proj1 R)). f_equal. apply Forall2_len in H2. rewrite H2, map_length.
    symmetry. apply (range_length n m r piv (val (fb s))); assumption.
Qed.
(** the order of the set's iteration always exists *)
Theorem C55_order_exists : forall a n m s, okm n m a -> rref_of a s -> exists order, range_order_ok T s order.
Proof.
  intros a n m s W H. destruct (C52_rref a n m s W H) as ((_ & WB & _) & r & piv & R). apply okm_mrep in WB.
  exists (map piv (seq 0 r)), (map piv (seq 0 r)).
  split; [apply (bound_variables_ok FS T TS _ _ _ _ _ _ WB (proj1 R))|]. split; [|reflexivity].
  apply nodup_map_inj; [apply seq_NoDup|]. intros i k Hi Hk Eq. apply in_seq in Hi, Hk.
  apply (ech_inj _ _ _ _ _ (proj1 R)); try assumption; lia.
Qed.

(** ** C56 *)
(** the calls a user makes, in sequence *)
Definition analyse (a : mat) : res (mat * mat * mat * nat * nat * list mat) :=
  plu <- mat_lu T a ;;
  s0 <- mat_row_echelon T a ;;
  s <- form_to_rref T s0 ;;
  r <- form_rank T s ;;
  k <- form_nullity T s ;;
  vs <- compute_kernel T s ;;
  Ok (plu, r, k, vs).
Theorem C56_no_panic : forall a n m, okm n m a -> safe (analyse a) (fun _ => True).
Proof.
  intros a n m W. unfold analyse.
  eapply safe_bind; [exact (C49_lu a n m W)|]. intros plu _.
  eapply safe_bind_eq; [exact (C51_row_echelon a n m W)|]. intros s0 E0 (RE & r & piv & E).
  eapply safe_bind_eq; [exact (C52_to_rref a n m s0 r piv RE E)|]. intros s E1 _.
  assert (RO : rref_of a s) by (exists s0; split; assumption).
  destruct (C53_nullity a n m s W (or_intror RO)) as (r' & -> & -> & _). cbn [bind].
  eapply safe_bind; [exact (C54_kernel a n m s W RO)|]. intros vs _. exact I.
Qed.
(** over a field type that never overflows the calls return *)
Theorem C56_total : forall a n m, NoOvf T -> okm n m a -> exists v, analyse a = Ok v.
Proof.
  intros a n m NO W. destruct (safe_nov _ _ (C49_lu a n m W) (nov_lu T NO a)) as (plu & E & _).
  destruct (safe_nov _ _ (C51_row_echelon a n m W) (nov_row_echelon T NO a)) as (s0 & E0 & RE & r & piv & EE).
  destruct (safe_nov _ _ (C52_to_rref a n m s0 r piv RE EE) (nov_to_rref T NO s0)) as (s & E1 & _).
  assert (RO : rref_of a s) by (exists s0; split; assumption).
  destruct (C53_nullity a n m s W (or_intror RO)) as (r' & ER & EN & _).
  destruct (safe_nov _ _ (C54_kernel a n m s W RO) (nov_kernel T NO s)) as (vs & EV & _).
  unfold analyse. rewrite E. cbn [bind]. rewrite E0. cbn [bind]. rewrite E1. cbn [bind]. rewrite ER. cbn [bind].
  rewrite EN. cbn [bind]. rewrite EV. eexists. reflexivity.
Qed.

(** ** C69: the reduced row echelon form is unique *)
Theorem C69_rref_unique : forall a a' n m s s', okm n m a -> okm n m a' -> rref_of a s -> rref_of a' s' ->
  (exists q, invertible n q /\ meq n m (mmul n q (val a)) (val a')) ->
  meq n m (val (fb s)) (val (fb s')).
Proof.
  intros a a' n m s s' W W' H H' (q & Iq & Mq).
  destruct (C52_rref a n m s W H) as ((_ & _ & I & M) & r & piv & R).
  destruct (C52_rref a' n m s' W' H') as ((_ & _ & I' & M') & r' & piv' & R').
  destruct I as (p' & P1 & P2).
  apply (rref_unique n m r piv (val (fb s)) r' piv' (val (fb s')) (mmul n (val (fp s')) (mmul n q p')) R R').
  - apply invertible_mul; [exact I'|]. apply invertible_mul; [exact Iq|]. exists (val (fp s)). split; assumption.
  - intros i j Hi Hj. rewrite mmul_assoc. rewrite <- (M' i j Hi Hj).
    apply (mmul_ext n n m); [apply meq_refl| |exact Hi|exact Hj].
    intros i1 j1 Hi1 Hj1. rewrite mmul_assoc. rewrite <- (Mq i1 j1 Hi1 Hj1).
    apply (mmul_ext n n m); [apply meq_refl| |exact Hi1|exact Hj1].
    intros i2 j2 Hi2 Hj2.
    rewrite (mmul_ext n n m p' p' _ _ (meq_refl _ _ _) (meq_sym _ _ _ _ M) i2 j2 Hi2 Hj2).
    rewrite <- mmul_assoc. rewrite (mmul_ext n n m _ _ (val a) (val a) P2 (meq_refl _ _ _) i2 j2 Hi2 Hj2).
    apply (mmul_id_l n m); assumption.
Qed.
(** it is any reduced row echelon form of a matrix row equivalent to [a] *)
Theorem C69_rref_characterised : forall a n m s q b r piv, okm n m a -> rref_of a s ->
  invertible n q -> meq n m (mmul n q (val a)) b -> rref n m r piv b -> meq n m (val (fb s)) b.
Proof.
  intros a n m s q b r' piv' W H Iq Mq R'.
  destruct (C52_rref a n m s W H) as ((_ & _ & I & M) & r & piv & R).
  destruct I as (p' & P1 & P2).
  apply (rref_unique n m r piv (val (fb s)) r' piv' b (mmul n q p') R R').
  - apply invertible_mul; [exact Iq|]. exists (val (fp s)). split; assumption.
  - intros i j Hi Hj. rewrite mmul_assoc. rewrite <- (Mq i j Hi Hj).
    apply (mmul_ext n n m); [apply meq_refl| |exact Hi|exact Hj].
    intros i2 j2 Hi2 Hj2.
    rewrite (mmul_ext n n m p' p' _ _ (meq_refl _ _ _) (meq_sym _ _ _ _ M) i2 j2 Hi2 Hj2).
    rewrite <- mmul_assoc. rewrite (mmul_ext n n m _ _ (val a) (val a) P2 (meq_refl _ _ _) i2 j2 Hi2 Hj2).
    apply (mmul_id_l n m); assumption.
Qed.

(** ** C71: inverses *)
Theorem C71_inverse : forall a n s, okm n n a -> rref_of a s ->
  (form_rank T s = Ok n -> meq n n (val (fb s)) mid /\
     meq n n (mmul n (val (fp s)) (val a)) mid /\ meq n n (mmul n (val a) (val (fp s))) mid) /\
  (form_rank T s = Ok n <-> invertible n (val a)).
Proof.
  intros a n s W H. destruct (C52_rref a n n s W H) as (RE & r & piv & R).
  pose proof (row_equivalent_form_ok _ _ _ _ RE) as FO. destruct RE as (_ & _ & I & M).
  rewrite (form_rank_ok FS T TS _ _ _ _ _ _ _ FO (proj1 R)).
  assert (A1 : r = n -> meq n n (val (fb s)) mid /\
     meq n n (mmul n (val (fp s)) (val a)) mid /\ meq n n (mmul n (val a) (val (fp s))) mid).
  { intros ->. pose proof (rref_full_identity n piv _ R) as EI. split; [exact EI|].
    assert (L : meq n n (mmul n (val (fp s)) (val a)) mid) by (eapply meq_trans; [exact M|exact EI]).
    split; [exact L|]. apply invertible_comm; assumption. }
  split; [intros E; apply A1; congruence|]. split.
  - intros E. destruct A1 as (_ & L & Rr); [congruence|]. exists (val (fp s)). split; assumption.
  - intros IA. f_equal. pose proof (ech_le _ _ _ _ _ (proj1 R)).
    destruct (Nat.eq_dec r n) as [->|N]; [reflexivity|]. exfalso.
    apply (ech_singular n r piv _ _ _ (proj1 R) ltac:(lia) I M IA).
Qed.

(** ** C72, C73: rank of transposes and products *)
Theorem C72_rank_transpose : forall a n m t s s' r r', okm n m a -> mat_transpose a = Ok t ->
  echelon_of a s \/ rref_of a s -> echelon_of t s' \/ rref_of t s' ->
  form_rank T s = Ok r -> form_rank T s' = Ok r' -> r = r'.
Proof.
  intros a n m t s s' r r' W Et H H' E E'. apply okm_mrep in W as RA.
  destruct (transpose_ok FS _ _ _ _ RA) as (t' & Et' & Rt). rewrite Et in Et'. inversion Et'; subst t'.
  apply mrep_okm in Rt. destruct Rt as [Wt Vt].
  destruct (C53_rank a n m s W H) as (x & Ex & _ & _ & _ & D1).
  destruct (C53_rank t m n s' Wt H') as (y & Ey & _ & _ & D2 & _).
  assert (x = r) by congruence. assert (y = r') by congruence. subst x y.
  apply (dimension_unique m (in_rowspace n m (val a))); [exact D1|].
  apply (dimension_iff m (in_colspace m n (val t))); [|exact D2].
  intros w. rewrite <- colspace_trans. split; apply in_colspace_ext; [exact Vt|apply meq_sym; exact Vt].
Qed.
Theorem C73_rank_product : forall a b n k m c s1 s2 s3 r1 r2 r3, okm n k a -> okm k m b -> mat_mul a b = Ok c ->
  echelon_of a s1 \/ rref_of a s1 -> echelon_of b s2 \/ rref_of b s2 -> echelon_of c s3 \/ rref_of c s3 ->
  form_rank T s1 = Ok r1 -> form_rank T s2 = Ok r2 -> form_rank T s3 = Ok r3 ->
  r3 <= r1 /\ r3 <= r2.
Proof.
  intros a b n k m c s1 s2 s3 r1 r2 r3 Wa Wb Ec H1 H2 H3 E1 E2 E3.
  pose proof Wa as (Wa' & Ra & Ca). pose proof Wb as (Wb' & Rb & Cb).
  pose proof (safe_val _ _ _ (C47_mul FS a b Wa' Wb' ltac:(congruence)) Ec) as (Wc & Rc & Cc & Vc).
  rewrite Ra, Ca, Cb in *.
  destruct (C53_rank a n k s1 Wa H1) as (x1 & Ex1 & _ & _ & DC1 & _).
  destruct (C53_rank b k m s2 Wb H2) as (x2 & Ex2 & _ & _ & _ & DR2).
  destruct (C53_rank c n m s3 (conj Wc (conj Rc Cc)) H3) as (x3 & Ex3 & _ & _ & DC3 & DR3).
  assert (x1 = r1) by congruence. assert (x2 = r2) by congruence. assert (x3 = r3) by congruence. subst x1 x2 x3.
  split.
  - apply (dimension_le n _ _ r3 r1 (fun w Hw => colspace_mul n k m (val a) (val b) w (in_colspace_ext n m _ _ w Vc Hw)) DC3 DC1).
  - apply (dimension_le m _ _ r3 r2 (fun w Hw => rowspace_mul_r n k m (val a) (val b) w (in_rowspace_ext n m _ _ w Vc Hw)) DR3 DR2).
Qed.
End PropLin.

(** ** C70: lu().u and row_echelon().b coincide exactly *)
Theorem C70_lu_u_is_row_echelon_b : forall {F : FieldImpl} (T : StabImpl F) (a p l u : mat F) s,
  mat_lu T a = Ok (p, l, u) -> mat_row_echelon T a = Ok s -> fb s = u.
Proof. intros F T a p l u s. apply lu_row_echelon_same. Qed.

(** ** The documented check of lu over Rational *)
Theorem C49_documented : forall a n m p l u x y t, okm rat_spec n m a ->
  mat_lu (rat_stab Debug) a = Ok (p, l, u) -> mat_mul p a = Ok x -> mat_mul l u = Ok y ->
  mat_epsilon_equals (rat_stab Debug) x y = Ok t -> t = true.
Proof.
  intros a n m p l u x y t W E Ex Ey Et.
  pose proof (safe_val _ _ _ (C49_lu rat_spec (rat_stab Debug) rat_stab_spec a n m W) E)
    as ((Wp & Rp & Cp) & (Wl & Rl & Cl) & (Wu & Ru & Cu) & _ & EQ & _).
  destruct W as (Wa & Ra & Ca).
  pose proof (safe_val _ _ _ (C47_mul rat_spec p a Wp Wa ltac:(congruence)) Ex) as (Wx & Rx & Cx & Vx).
  pose proof (safe_val _ _ _ (C47_mul rat_spec l u Wl Wu ltac:(congruence)) Ey) as (Wy & Ry & Cy & Vy).
  pose proof (safe_val _ _ _ (C58_epsilon_equals x y Wx Wy ltac:(congruence) ltac:(congruence)) Et) as H.
  apply H. rewrite Rx, Cx, Rp, Ca. rewrite Rp, Ca, Cp in Vx. rewrite Rl, Cl, Cu in Vy.
  eapply meq_trans; [exact Vx|]. eapply meq_trans; [exact EQ|]. apply meq_sym. exact Vy.
Qed.

(** ** Concrete cases over Rational: a 3 x 4 matrix of rank 2 and an invertible 2 x 2 matrix *)
Notation RT := (rat_stab Debug).
Definition ex_a := ex_mat 3 4 [(0,1);(2,1);(1,1);(4,1);(1,2);(1,1);(0,1);(-1,3);(1,2);(3,1);(1,1);(11,3)]%Z.
Definition ex_b := ex_mat 2 2 [(0,1);(2,1);(1,3);(1,1)]%Z.
Example ex_a_ok : okm rat_spec 3 4 ex_a. Proof. split; [apply ex_mat_ok; reflexivity|split; reflexivity]. Qed.
Example ex_b_ok : okm rat_spec 2 2 ex_b. Proof. split; [apply ex_mat_ok; reflexivity|split; reflexivity]. Qed.
Example C49_ex : mat_lu RT ex_a = Ok
  (ex_mat 3 3 [(0,1);(0,1);(1,1);(1,1);(0,1);(0,1);(0,1);(1,1);(0,1)]%Z,
   ex_mat 3 3 [(1,2);(0,1);(0,1);(0,1);(2,1);(0,1);(1,2);(-2,1);(1,1)]%Z,
   ex_mat 3 4 [(1,1);(6,1);(2,1);(22,3);(0,1);(1,1);(1,2);(2,1);(0,1);(0,1);(0,1);(0,1)]%Z).
Proof. reflexivity. Qed.
Definition ex_a_rref : form (F:=rat_impl Debug) := mkform
  (ex_mat 3 3 [(-3,1);(0,1);(2,1);(1,2);(0,1);(0,1);(1,1);(1,1);(-1,1)]%Z)
  (ex_mat 3 4 [(1,1);(0,1);(-1,1);(-14,3);(0,1);(1,1);(1,2);(2,1);(0,1);(0,1);(0,1);(0,1)]%Z).
Lemma ex_rref_of (a : mat (rat_impl Debug)) s : (s0 <- mat_row_echelon RT a ;; form_to_rref RT s0) = Ok s -> rref_of RT a s.
Proof. intros E. apply bind_Ok in E. destruct E as (s0 & E0 & E1). exists s0. split; assumption. Qed.
Example C52_ex : rref_of RT ex_a ex_a_rref. Proof. apply ex_rref_of. reflexivity. Qed.
Example C53_ex : form_rank RT ex_a_rref = Ok 2 /\ form_nullity RT ex_a_rref = Ok 2.
Proof. split; reflexivity. Qed.
Example C54_ex : compute_kernel RT ex_a_rref =
  Ok [ex_mat 4 1 [(1,1);(-1,2);(1,1);(0,1)]%Z; ex_mat 4 1 [(14,3);(-2,1);(0,1);(1,1)]%Z].
Proof. reflexivity. Qed.
Example C55_ex : range_order_ok RT ex_a_rref [1; 0] /\
  compute_range ex_a [1; 0] = Ok [ex_mat 3 1 [(2,1);(1,1);(3,1)]%Z; ex_mat 3 1 [(0,1);(1,2);(1,2)]%Z].
Proof.
  split; [|reflexivity]. exists [0; 1]. split; [reflexivity|]. split.
  - repeat constructor; simpl; intuition discriminate.
  - intros c; simpl; tauto.
Qed.
Example C71_ex : exists s, rref_of RT ex_b s /\ form_rank RT s = Ok 2 /\ fp s = ex_mat 2 2 [(-3,2);(3,1);(1,2);(0,1)]%Z.
Proof.
  exists (mkform (ex_mat 2 2 [(-3,2);(3,1);(1,2);(0,1)]%Z) (ex_mat 2 2 [(1,1);(0,1);(0,1);(1,1)]%Z)).
  split; [apply ex_rref_of; reflexivity|split; reflexivity].
Qed.
(** a product of matrices of rank 2 *)
Definition ex_c := ex_mat 2 3 [(1,1);(-2,3);(10,1);(5,6);(3,9);(5,1)]%Z.
Definition ex_c_rref : form (F:=rat_impl Debug) := mkform
  (ex_mat 2 2 [(3,8);(3,4);(-15,16);(9,8)]%Z) (ex_mat 2 3 [(1,1);(0,1);(15,2);(0,1);(1,1);(-15,4)]%Z).
Example C73_ex : mat_mul ex_b ex_m1 = Ok ex_c /\ rref_of RT ex_c ex_c_rref /\ form_rank RT ex_c_rref = Ok 2.
Proof. split; [reflexivity|]. split; [apply ex_rref_of; reflexivity|reflexivity]. Qed.

Print Assumptions C49_lu.
Print Assumptions C50_lu_shapes.
Print Assumptions C51_row_echelon.
Print Assumptions C52_to_rref.
Print Assumptions C52_rref.
Print Assumptions C53_rank.
Print Assumptions C53_nullity.
Print Assumptions C54_kernel.
Print Assumptions C54_kernel_mul.
Print Assumptions C55_range.
Print Assumptions C55_order_exists.
Print Assumptions C56_no_panic.
Print Assumptions C56_total.
Print Assumptions C69_rref_unique.
Print Assumptions C69_rref_characterised.
Print Assumptions C71_inverse.
Print Assumptions C72_rank_transpose.
Print Assumptions C73_rank_product.
Print Assumptions C70_lu_u_is_row_echelon_b.
Print Assumptions C49_documented.
