(** * Row operations and reduced echelon forms over a mathematical field. *)
From Verif Require Import Base FieldIface LinSpec.
From Coq Require Import Field_theory Ring Field Setoid.

Lemma nodup_map_inj {A B : Type} (f : A -> B) (l : list A) : NoDup l ->
  (forall x y, In x l -> In y l -> f x = f y -> x = y) -> NoDup (map f l).
Proof.
  induction 1 as [|x l Nx ND IH]; intros H; simpl; constructor.
  - intros Hin. apply in_map_iff in Hin. destruct Hin as (y & E & Hy). apply Nx.
    rewrite (H x y); [exact Hy|left; reflexivity|right; exact Hy|symmetry; exact E].
  - apply IH. intros y z Hy Hz. apply H; right; assumption.
Qed.

Lemma filter_split_length {A : Type} (P : A -> bool) (l : list A) :
  length (filter P l) + length (filter (fun x => negb (P x)) l) = length l.
Proof. induction l as [|x l IH]; simpl; [reflexivity|]. destruct (P x); simpl; lia. Qed.

Section Rref.
Context {K : MathField}.
Add Field Kf11 : (kth K).
Notation vec := (nat -> K).
Notation fmat := (nat -> nat -> K).
Implicit Types a b p q : fmat.

(** ** Row operations *)
Definition op_scale (i : nat) (x : K) (a : fmat) : fmat :=
  fun r c => if r =? i then kmul x (a r c) else a r c.
Definition op_swap (s t : nat) (a : fmat) : fmat :=
  fun r c => a (if r =? s then t else if r =? t then s else r) c.
Definition op_repl (s t : nat) (x : K) (a : fmat) : fmat :=
  fun r c => if r =? t then kadd (a t c) (kmul (a s c) x) else a r c.

Record rowop (n : nat) (op : fmat -> fmat) : Prop := {
  ro_mul : forall k a b i j, mmul k (op a) b i j = op (mmul k a b) i j;
  ro_ext : forall m a b, meq n m a b -> meq n m (op a) (op b)
}.
Lemma rowop_scale n i x : rowop n (op_scale i x).
Proof.
  split.
  - intros k a b r c. unfold mmul, op_scale. destruct (r =? i); [|reflexivity].
    rewrite <- sumn_mul_l. apply sumn_ext. intros; ring.
  - intros m a b H r c Hr Hc. unfold op_scale. rewrite H by assumption. reflexivity.
Qed.
Lemma rowop_swap n s t : s < n -> t < n -> rowop n (op_swap s t).
Proof.
  intros Hs Ht. split.
  - intros. reflexivity.
  - intros m a b H r c Hr Hc. unfold op_swap. apply H; [|exact Hc].
    destruct (r =? s); [exact Ht|]. destruct (r =? t); assumption.
Qed.
Lemma rowop_repl n s t x : s < n -> rowop n (op_repl s t x).
Proof.
  intros Hs. split.
  - intros k a b r c. unfold mmul, op_repl. destruct (r =? t); [|reflexivity].
    rewrite <- sumn_mul_r, <- sumn_add. apply sumn_ext. intros; ring.
  - intros m a b H r c Hr Hc. unfold op_repl. destruct (Nat.eqb_spec r t); [subst|apply H; assumption].
    rewrite !H by assumption. reflexivity.
Qed.
Lemma rowop_inv n op op' p : rowop n op -> rowop n op' ->
  (forall a, meq n n (op (op' a)) a) -> (forall a, meq n n (op' (op a)) a) ->
  invertible n p -> invertible n (op p).
Proof.
  intros R R' H1 H2 I.
  assert (J : invertible n (op mid)).
  { exists (op' mid). split.
    - intros i j Hi Hj. rewrite (ro_mul _ _ R).
      rewrite (ro_ext _ _ R n _ (op' mid)); [apply H1; assumption|apply mmul_id_l|assumption|assumption].
    - intros i j Hi Hj. rewrite (ro_mul _ _ R').
      rewrite (ro_ext _ _ R' n _ (op mid)); [apply H2; assumption|apply mmul_id_l|assumption|assumption]. }
  eapply invertible_ext; [|exact (invertible_mul n _ _ J I)].
  intros i j Hi Hj. rewrite (ro_mul _ _ R).
  apply (ro_ext _ _ R n); try assumption. apply mmul_id_l.
Qed.
Lemma invertible_scale n i x p : x <> k0 -> invertible n p -> invertible n (op_scale i x p).
Proof.
  intros Nx. apply (rowop_inv n _ (op_scale i (kinv x))); try apply rowop_scale.
  - intros a r c _ _. unfold op_scale. destruct (r =? i); [field; exact Nx|reflexivity].
  - intros a r c _ _. unfold op_scale. destruct (r =? i); [field; exact Nx|reflexivity].
Qed.
Lemma op_swap_swap s t a r c : op_swap s t (op_swap s t a) r c = a r c.
Proof.
  unfold op_swap. f_equal. destruct (Nat.eqb_spec r s) as [->|N1].
  - destruct (Nat.eqb_spec t s); [congruence|]. rewrite Nat.eqb_refl. reflexivity.
  - destruct (Nat.eqb_spec r t) as [->|N2]; [rewrite Nat.eqb_refl; reflexivity|].
    apply Nat.eqb_neq in N1, N2. rewrite N1, N2. reflexivity.
Qed.
Lemma invertible_swap n s t p : s < n -> t < n -> invertible n p -> invertible n (op_swap s t p).
Proof.
  intros Hs Ht. apply (rowop_inv n _ (op_swap s t)); try (apply rowop_swap; assumption);
  intros a r c _ _; apply op_swap_swap.
Qed.
Lemma invertible_repl n s t x p : s < n -> s <> t -> invertible n p -> invertible n (op_repl s t x p).
Proof.
  intros Hs N. apply (rowop_inv n _ (op_repl s t (kopp x))); try (apply rowop_repl; assumption);
  intros a r c _ _; unfold op_repl; apply Nat.eqb_neq in N; rewrite N, Nat.eqb_refl;
  (destruct (Nat.eqb_spec r t); [subst; ring|reflexivity]).
Qed.
(** applying the same operation to both sides of p a = b *)
Lemma rowop_both n m k op p a b : rowop n op -> meq n m (mmul k p a) b -> meq n m (mmul k (op p) a) (op b).
Proof.
  intros R H i j Hi Hj. rewrite (ro_mul _ _ R). apply (ro_ext _ _ R m); assumption.
Qed.

(** ** Column relations survive multiplication by an invertible matrix *)
Lemma kernel_iff n m p a b w : invertible n p -> meq n m (mmul n p a) b ->
  (in_kernel n m a w <-> in_kernel n m b w).
Proof.
  intros I E. split; intros H.
  - intros i Hi. rewrite <- (mvec_ext n m _ _ w w E (fun _ _ => eq_refl) i Hi).
    rewrite mvec_mmul. apply mvec_zero. exact H.
  - unfold in_kernel. apply (invertible_inj n p); [exact I|].
    intros i Hi. rewrite <- mvec_mmul. rewrite (mvec_ext n m _ _ w w E (fun _ _ => eq_refl) i Hi).
    apply H. exact Hi.
Qed.

(** ** Facts about a reduced form *)
Section Facts.
Variables (n m r : nat) (piv : nat -> nat) (b : fmat).
Hypothesis R : rref n m r piv b.

Lemma rref_piv_lt i : i < r -> piv i < m. Proof. apply (ech_lt _ _ _ _ _ (proj1 R)). Qed.
Lemma ech_inj n' c' r' piv' b' (E : ech n' c' r' piv' b') i k : i < r' -> k < r' -> piv' i = piv' k -> i = k.
Proof.
  intros Hi Hk Eq. destruct (Nat.lt_trichotomy i k) as [L|[L|L]]; [|exact L|].
  - pose proof (ech_inc _ _ _ _ _ E i k L Hk). lia.
  - pose proof (ech_inc _ _ _ _ _ E k i L Hi). lia.
Qed.
(** a pivot column is a unit vector *)
Lemma rref_unit i k : i < n -> k < r -> b i (piv k) = if i =? k then k1 else k0.
Proof.
  intros Hi Hk. destruct R as [E A]. destruct (Nat.eqb_spec i k) as [->|N].
  - apply (ech_one _ _ _ _ _ E); exact Hk.
  - destruct (Nat.lt_trichotomy i k) as [L|[L|L]]; [apply A; assumption|congruence|].
    destruct (le_lt_dec r i) as [G|G].
    + apply (ech_zero _ _ _ _ _ E); [exact G|exact Hi|apply (ech_lt _ _ _ _ _ E); exact Hk].
    + apply (ech_left _ _ _ _ _ E); [exact G|]. apply (ech_inc _ _ _ _ _ E); assumption.
Qed.
End Facts.

Definition is_piv (r : nat) (piv : nat -> nat) (j : nat) : bool :=
  existsb (fun i => piv i =? j) (seq 0 r).
Lemma is_piv_true r piv j : is_piv r piv j = true <-> exists i, i < r /\ piv i = j.
Proof.
  unfold is_piv. rewrite existsb_exists. split.
  - intros (i & Hi & E). apply in_seq in Hi. apply Nat.eqb_eq in E. exists i. split; [lia|exact E].
  - intros (i & Hi & E). exists i. split; [apply in_seq; lia|apply Nat.eqb_eq; exact E].
Qed.
Lemma is_piv_false r piv j : is_piv r piv j = false <-> forall i, i < r -> piv i <> j.
Proof.
  split.
  - intros E i Hi Eq. assert (is_piv r piv j = true) by (apply is_piv_true; eauto). congruence.
  - intros H. destruct (is_piv r piv j) eqn:E; [|reflexivity].
    apply is_piv_true in E. destruct E as (i & Hi & Eq). destruct (H i Hi Eq).
Qed.
Definition free_list (m r : nat) (piv : nat -> nat) : list nat :=
  filter (fun j => negb (is_piv r piv j)) (seq 0 m).
(** the kernel vector belonging to the free column [c]: one at [c], minus the entries of column [c]
    at the pivots *)
Definition ker_vec (r : nat) (piv : nat -> nat) (b : fmat) (c : nat) : vec :=
  fun j => if j =? c then k1
           else match find (fun i => piv i =? j) (seq 0 r) with
                | Some i => kopp (b i c)
                | None => k0
                end.
Lemma find_piv n m r piv b i : ech n m r piv b -> i < r -> find (fun k => piv k =? piv i) (seq 0 r) = Some i.
Proof.
  intros E Hi. destruct (find (fun k => piv k =? piv i) (seq 0 r)) as [k|] eqn:F.
  - apply find_some in F. destruct F as [F1 F2]. apply in_seq in F1. apply Nat.eqb_eq in F2.
    f_equal. eapply ech_inj; [exact E|lia|exact Hi|exact F2].
  - eapply find_none in F; [|apply in_seq; split; [apply Nat.le_0_l|exact Hi]].
    cbv beta in F. rewrite Nat.eqb_refl in F. discriminate.
Qed.
Lemma ker_vec_piv n m r piv b c i : ech n m r piv b -> is_piv r piv c = false -> i < r ->
  ker_vec r piv b c (piv i) = kopp (b i c).
Proof.
  intros E Hc Hi. unfold ker_vec.
  destruct (Nat.eqb_spec (piv i) c) as [Eq|_].
  - exfalso. eapply is_piv_false; eauto.
  - rewrite (find_piv _ _ _ _ _ _ E Hi). reflexivity.
Qed.
Lemma ker_vec_free r piv b c j : is_piv r piv j = false ->
  ker_vec r piv b c j = if j =? c then k1 else k0.
Proof.
  intros H. unfold ker_vec. destruct (j =? c); [reflexivity|].
  destruct (find (fun i => piv i =? j) (seq 0 r)) as [i|] eqn:F; [|reflexivity].
  apply find_some in F. destruct F as [F1 F2]. apply in_seq in F1. apply Nat.eqb_eq in F2.
  exfalso. eapply is_piv_false; eauto. lia.
Qed.
Lemma in_free m r piv c : In c (free_list m r piv) <-> c < m /\ is_piv r piv c = false.
Proof.
  unfold free_list. rewrite filter_In, in_seq, negb_true_iff. intuition lia.
Qed.

Section Kernel.
Variables (n m r : nat) (piv : nat -> nat) (b : fmat).
Hypothesis R : rref n m r piv b.
Let E := proj1 R.

Lemma ker_vec_in c : c < m -> is_piv r piv c = false -> in_kernel n m b (ker_vec r piv b c).
Proof.
  intros Hc Fc i Hi. unfold mvec. destruct (le_lt_dec r i) as [L|L].
  - apply sumn_zero'. intros j Hj. rewrite (ech_zero _ _ _ _ _ E) by assumption. ring.
  - rewrite (sumn_ext m _ (fun j => kadd (if j =? piv i then kopp (b i c) else k0) (if j =? c then b i c else k0))).
    + rewrite sumn_add. rewrite (sumn_delta m (piv i)), (sumn_delta m c).
      * rewrite !Nat.eqb_refl. ring.
      * exact Hc.
      * intros j _ N. apply Nat.eqb_neq in N. rewrite N. reflexivity.
      * apply (ech_lt _ _ _ _ _ E). exact L.
      * intros j _ N. apply Nat.eqb_neq in N. rewrite N. reflexivity.
    + intros j Hj. destruct (is_piv r piv j) eqn:Pj.
      * apply is_piv_true in Pj. destruct Pj as (k & Hk & <-).
        rewrite (ker_vec_piv _ _ _ _ _ _ _ E Fc Hk). rewrite (rref_unit _ _ _ _ _ R i k Hi Hk).
        destruct (Nat.eqb_spec (piv k) c) as [Eq|_]; [exfalso; eapply is_piv_false; eauto|].
        destruct (Nat.eqb_spec i k) as [->|N]; [rewrite Nat.eqb_refl; ring|].
        destruct (Nat.eqb_spec (piv k) (piv i)) as [Eq|_]; [|ring].
        apply (ech_inj _ _ _ _ _ E) in Eq; [congruence|assumption|assumption].
      * rewrite ker_vec_free by exact Pj.
        destruct (Nat.eqb_spec j (piv i)) as [Eq|_].
        { exfalso. eapply is_piv_false; eauto. }
        destruct (Nat.eqb_spec j c) as [->|_]; ring.
Qed.

Definition ker_list : list vec := map (ker_vec r piv b) (free_list m r piv).

Lemma lcomb_ker c j : lcomb ker_list c j =
  sumn (length (free_list m r piv)) (fun k => kmul (c k) (ker_vec r piv b (nth k (free_list m r piv) 0) j)).
Proof.
  unfold lcomb, ker_list. rewrite map_length. apply sumn_ext. intros k Hk. f_equal.
  rewrite (nth_indep _ vzero (ker_vec r piv b 0)) by (rewrite map_length; exact Hk).
  rewrite map_nth. reflexivity.
Qed.
Lemma nodup_free : NoDup (free_list m r piv).
Proof. apply NoDup_filter, seq_NoDup. Qed.

Lemma ker_indep : lin_indep m ker_list.
Proof.
  intros c H k Hk. unfold ker_list in Hk. rewrite map_length in Hk.
  set (j := nth k (free_list m r piv) 0).
  assert (Hj : In j (free_list m r piv)) by (apply nth_In; exact Hk).
  apply in_free in Hj. destruct Hj as [Hj Fj].
  specialize (H j Hj). rewrite lcomb_ker in H. rewrite (sumn_delta _ k) in H.
  - rewrite ker_vec_free in H by exact Fj. unfold j in H. rewrite Nat.eqb_refl in H.
    rewrite <- H. ring.
  - exact Hk.
  - intros i Hi N. rewrite ker_vec_free by exact Fj.
    destruct (Nat.eqb_spec j (nth i (free_list m r piv) 0)) as [Eq|_]; [|ring].
    exfalso. apply N. symmetry.
    apply (proj1 (NoDup_nth (free_list m r piv) 0) nodup_free k i Hk Hi Eq).
Qed.

Lemma ker_spans w : in_kernel n m b w -> in_span m ker_list w.
Proof.
  intros H. exists (fun k => w (nth k (free_list m r piv) 0)). intros j Hj. rewrite lcomb_ker.
  unfold free_list.
  rewrite (sumn_filter (fun j => negb (is_piv r piv j)) m (fun c => kmul (w c) (ker_vec r piv b c j))).
  destruct (is_piv r piv j) eqn:Pj.
  - apply is_piv_true in Pj. destruct Pj as (i & Hi & <-).
    pose proof (H i (Nat.lt_le_trans _ _ _ Hi (ech_le _ _ _ _ _ E))) as Hb. unfold mvec in Hb.
    assert (Eq : sumn m (fun l => kmul (b i l) (w l)) =
       kadd (w (piv i)) (sumn m (fun c => if negb (is_piv r piv c) then kmul (b i c) (w c) else k0))).
    { rewrite (sumn_ext m _ (fun l => kadd (if l =? piv i then w (piv i) else k0)
          (if negb (is_piv r piv l) then kmul (b i l) (w l) else k0))).
      - rewrite sumn_add. f_equal. rewrite (sumn_delta m (piv i)).
        + rewrite Nat.eqb_refl. reflexivity.
        + exact Hj.
        + intros l _ N. apply Nat.eqb_neq in N. rewrite N. reflexivity.
      - intros l Hl. destruct (is_piv r piv l) eqn:Pl; simpl.
        + apply is_piv_true in Pl. destruct Pl as (k & Hk & <-).
          rewrite (rref_unit _ _ _ _ _ R i k); [|pose proof (ech_le _ _ _ _ _ E); lia|exact Hk].
          destruct (Nat.eqb_spec i k) as [->|N]; [rewrite Nat.eqb_refl; ring|].
          destruct (Nat.eqb_spec (piv k) (piv i)) as [Eq|_]; [|ring].
          apply (ech_inj _ _ _ _ _ E) in Eq; [congruence|assumption|assumption].
        + destruct (Nat.eqb_spec l (piv i)) as [Eq|_]; [|ring].
          exfalso. eapply is_piv_false; eauto. }
    rewrite Eq in Hb.
    rewrite (sumn_ext m _ (fun c => kopp (if negb (is_piv r piv c) then kmul (b i c) (w c) else k0))).
    + rewrite sumn_opp.
      transitivity (ksub (kadd (w (piv i)) (sumn m (fun c => if negb (is_piv r piv c) then kmul (b i c) (w c) else k0)))
         (sumn m (fun c => if negb (is_piv r piv c) then kmul (b i c) (w c) else k0))); [ring|].
      rewrite Hb. ring.
    + intros c Hc. destruct (is_piv r piv c) eqn:Pc; simpl; [ring|].
      rewrite (ker_vec_piv _ _ _ _ _ _ _ E Pc Hi). ring.
  - rewrite (sumn_delta m j).
    + rewrite Pj. simpl. rewrite ker_vec_free by exact Pj. rewrite Nat.eqb_refl. ring.
    + exact Hj.
    + intros c Hc N. destruct (is_piv r piv c) eqn:Pc; [reflexivity|]. simpl.
      rewrite ker_vec_free by exact Pj. destruct (Nat.eqb_spec j c) as [Eq|_]; [congruence|ring].
Qed.

Lemma ker_basis : is_basis m (in_kernel n m b) ker_list.
Proof.
  split; [exact ker_indep|split; [|exact ker_spans]].
  apply Forall_forall. intros v Hv. unfold ker_list in Hv. apply in_map_iff in Hv.
  destruct Hv as (c & <- & Hc). apply in_free in Hc. apply ker_vec_in; apply Hc.
Qed.

(** there are exactly [r] pivot columns *)
Lemma free_count : length (free_list m r piv) + r = m.
Proof.
  assert (L : length (filter (is_piv r piv) (seq 0 m)) = r).
  { transitivity (length (map piv (seq 0 r))); [|rewrite map_length; apply seq_length].
    apply Nat.le_antisymm; apply NoDup_incl_length.
    - apply NoDup_filter, seq_NoDup.
    - intros j Hj. apply filter_In in Hj. destruct Hj as [_ Hj]. apply is_piv_true in Hj.
      destruct Hj as (i & Hi & <-). apply in_map. apply in_seq. lia.
    - apply nodup_map_inj; [apply seq_NoDup|].
      intros i k Hi Hk Eq. apply in_seq in Hi, Hk. eapply (ech_inj _ _ _ _ _ E); [lia|lia|exact Eq].
    - intros j Hj. apply in_map_iff in Hj. destruct Hj as (i & <- & Hi). apply in_seq in Hi.
      apply filter_In. split; [apply in_seq; split; [lia|]; apply (ech_lt _ _ _ _ _ E); lia|].
      apply is_piv_true. exists i. split; [lia|reflexivity]. }
  pose proof (filter_split_length (is_piv r piv) (seq 0 m)) as S. rewrite seq_length in S.
  unfold free_list. lia.
Qed.
End Kernel.

(** ** Column space *)
Section Range.
Variables (n m r : nat) (piv : nat -> nat) (a b p : fmat).
Hypothesis R : rref n m r piv b.
Hypothesis I : invertible n p.
Hypothesis PA : meq n m (mmul n p a) b.
Let E := proj1 R.
Variable order : list nat.
Hypothesis ND : NoDup order.
Hypothesis IN : forall j, In j order <-> is_piv r piv j = true.

Lemma order_lt k : k < length order -> nth k order 0 < m.
Proof.
  intros Hk. assert (H : In (nth k order 0) order) by (apply nth_In; exact Hk).
  apply IN, is_piv_true in H. destruct H as (i & Hi & <-). apply (ech_lt _ _ _ _ _ E). exact Hi.
Qed.
(** a combination of columns is zero for [a] iff it is for [b] *)
Lemma lcomb_cols a' c i : lcomb (map (mcol a') order) c i =
  sumn (length order) (fun k => kmul (c k) (a' i (nth k order 0))).
Proof.
  unfold lcomb. rewrite map_length. apply sumn_ext. intros k Hk. f_equal.
  rewrite (nth_indep _ vzero (mcol a' 0)) by (rewrite map_length; exact Hk).
  rewrite map_nth. reflexivity.
Qed.
Lemma mvec_lcomb c i : i < n ->
  mvec n p (lcomb (map (mcol a) order) c) i = lcomb (map (mcol b) order) c i.
Proof.
  intros Hi. unfold mvec. rewrite lcomb_cols.
  rewrite (sumn_ext n _ (fun l => sumn (length order) (fun k => kmul (c k) (kmul (p i l) (a l (nth k order 0)))))).
  - rewrite sumn_swap. apply sumn_ext. intros k Hk. rewrite sumn_mul_l. f_equal.
    apply (PA i (nth k order 0) Hi). apply order_lt. exact Hk.
  - intros l Hl. rewrite lcomb_cols, <- sumn_mul_l. apply sumn_ext. intros; ring.
Qed.
Lemma order_unit i k : i < n -> k < length order ->
  (i < r /\ piv i = nth k order 0 /\ b i (nth k order 0) = k1) \/
  (~ (i < r /\ piv i = nth k order 0) /\ b i (nth k order 0) = k0).
Proof.
  intros Hi Hk. assert (H : In (nth k order 0) order) by (apply nth_In; exact Hk).
  apply IN, is_piv_true in H. destruct H as (q & Hq & Eq). rewrite <- Eq.
  rewrite (rref_unit _ _ _ _ _ R i q Hi Hq). destruct (Nat.eqb_spec i q) as [->|N].
  - left. auto.
  - right. split; [|reflexivity]. intros [H1 H2]. apply (ech_inj _ _ _ _ _ E) in H2; auto.
Qed.
Lemma range_indep : lin_indep n (map (mcol a) order).
Proof.
  intros c H k Hk. rewrite map_length in Hk.
  assert (Hin : In (nth k order 0) order) by (apply nth_In; exact Hk).
  apply IN, is_piv_true in Hin. destruct Hin as (i & Hi & Eq).
  assert (Hin : i < n) by (pose proof (ech_le _ _ _ _ _ E); lia).
  pose proof (mvec_lcomb c i Hin) as M. rewrite mvec_zero in M by (intros; apply H; assumption).
  rewrite lcomb_cols in M. rewrite (sumn_delta _ k) in M.
  - destruct (order_unit i k Hin Hk) as [(_ & _ & B)|(N & _)]; [|exfalso; apply N; auto].
    rewrite B in M. transitivity (kmul (c k) k1); [ring|]. symmetry. exact M.
  - exact Hk.
  - intros q Hq N. destruct (order_unit i q Hin Hq) as [(_ & E2 & _)|(_ & B)].
    + exfalso. apply N. rewrite Eq in E2. symmetry.
      apply (proj1 (NoDup_nth order 0) ND k q Hk Hq E2).
    + rewrite B. ring.
Qed.
Lemma range_spans_col j : j < m -> in_span n (map (mcol a) order) (mcol a j).
Proof.
  intros Hj.
  exists (fun k => match find (fun i => piv i =? nth k order 0) (seq 0 r) with Some i => b i j | None => k0 end).
  set (c := fun k => match find (fun i => piv i =? nth k order 0) (seq 0 r) with Some i => b i j | None => k0 end).
  assert (B : forall i, i < n -> b i j = lcomb (map (mcol b) order) c i).
  { intros i Hi. rewrite lcomb_cols. destruct (le_lt_dec r i) as [L|L].
    - rewrite (ech_zero _ _ _ _ _ E) by assumption. symmetry. apply sumn_zero'. intros k Hk.
      destruct (order_unit i k Hi Hk) as [(? & _)|(_ & B)]; [lia|]. rewrite B. ring.
    - assert (Hin : In (piv i) order) by (apply IN, is_piv_true; eauto).
      destruct (In_nth _ _ 0 Hin) as (k & Hk & Eq).
      rewrite (sumn_delta _ k).
      + destruct (order_unit i k Hi Hk) as [(_ & _ & B)|(N & _)]; [|exfalso; apply N; auto].
        rewrite B. unfold c. rewrite Eq, (find_piv _ _ _ _ _ _ E L). ring.
      + exact Hk.
      + intros q Hq N. destruct (order_unit i q Hi Hq) as [(_ & E2 & _)|(_ & B)]; [|rewrite B; ring].
        exfalso. apply N. symmetry. apply (proj1 (NoDup_nth order 0) ND k q Hk Hq). congruence. }
  (* transfer through p *)
  intros i Hi.
  assert (Z : forall i, i < n -> ksub (mcol a j i) (lcomb (map (mcol a) order) c i) = k0).
  { apply (invertible_inj n p); [exact I|]. intros q Hq.
    transitivity (ksub (mvec n p (mcol a j) q) (mvec n p (lcomb (map (mcol a) order) c) q)).
    - unfold mvec. rewrite <- sumn_sub. apply sumn_ext. intros; ring.
    - rewrite mvec_lcomb by exact Hq. rewrite <- B by exact Hq.
      change (mvec n p (mcol a j) q) with (mmul n p a q j). rewrite PA by assumption. ring. }
  specialize (Z i Hi). transitivity (kadd (ksub (mcol a j i) (lcomb (map (mcol a) order) c i)) (lcomb (map (mcol a) order) c i)).
  - ring.
  - rewrite Z. ring.
Qed.
Lemma range_length : length order = r.
Proof.
  transitivity (length (map piv (seq 0 r))); [|rewrite map_length; apply seq_length].
  apply Nat.le_antisymm; apply NoDup_incl_length.
  - exact ND.
  - intros j Hj. apply IN, is_piv_true in Hj.
    destruct Hj as (i & Hi & <-). apply in_map. apply in_seq. lia.
  - apply nodup_map_inj; [apply seq_NoDup|].
    intros i k Hi Hk Eq. apply in_seq in Hi, Hk. eapply (ech_inj _ _ _ _ _ E); [lia|lia|exact Eq].
  - intros j Hj. apply in_map_iff in Hj. destruct Hj as (i & <- & Hi). apply in_seq in Hi.
    apply IN. apply is_piv_true. exists i. split; [lia|reflexivity].
Qed.
End Range.

(** spans are closed under combinations *)
Lemma span_trans n vs ws (w : vec) : Forall (in_span n ws) vs -> in_span n vs w -> in_span n ws w.
Proof.
  intros S [c Hc]. apply in_span_choice in S. destruct S as [C HC].
  exists (fun j => sumn (length vs) (fun k => kmul (c k) (C k j))).
  intros i Hi. rewrite Hc by exact Hi. unfold lcomb at 1.
  rewrite (sumn_ext (length vs) _ (fun k => sumn (length ws) (fun j => kmul (kmul (c k) (C k j)) (nth j ws vzero i)))).
  - rewrite sumn_swap. unfold lcomb. apply sumn_ext. intros j Hj. rewrite sumn_mul_r. reflexivity.
  - intros q Hq. rewrite HC by assumption. unfold lcomb. rewrite <- sumn_mul_l. apply sumn_ext. intros. ring.
Qed.
Lemma in_span_mem n vs (w : vec) : In w vs -> in_span n vs w.
Proof.
  intros H. destruct (In_nth _ _ vzero H) as (k & Hk & E).
  exists (fun i => if i =? k then k1 else k0). intros i Hi. unfold lcomb.
  rewrite (sumn_delta _ k); [rewrite Nat.eqb_refl, E; ring|exact Hk|].
  intros q _ N. apply Nat.eqb_neq in N. rewrite N. ring.
Qed.

Lemma range_basis n m r piv a b p order : rref n m r piv b -> invertible n p -> meq n m (mmul n p a) b ->
  NoDup order -> (forall j, In j order <-> is_piv r piv j = true) ->
  is_basis n (in_colspace n m a) (map (mcol a) order).
Proof.
  intros R I PA ND IN. split; [|split].
  - eapply range_indep; eassumption.
  - apply Forall_forall. intros v Hv. apply in_map_iff in Hv. destruct Hv as (j & <- & Hj).
    apply IN, is_piv_true in Hj. destruct Hj as (i & Hi & <-).
    apply in_span_mem. apply in_map. apply in_seq. pose proof (ech_lt _ _ _ _ _ (proj1 R) i Hi). lia.
  - intros w Hw. eapply span_trans; [|exact Hw].
    apply Forall_forall. intros v Hv. apply in_map_iff in Hv. destruct Hv as (j & <- & Hj).
    apply in_seq in Hj. eapply range_spans_col; try eassumption. lia.
Qed.

(** ** Row space: the nonzero rows of an echelon form *)
Lemma lcomb_rows (a : fmat) n c j : lcomb (map (mrow a) (seq 0 n)) c j = sumn n (fun k => kmul (c k) (a k j)).
Proof.
  unfold lcomb. rewrite map_length, seq_length. apply sumn_ext. intros k Hk. f_equal.
  rewrite (nth_indep _ vzero (mrow a 0)) by (rewrite map_length, seq_length; exact Hk).
  rewrite map_nth, seq_nth by exact Hk. reflexivity.
Qed.
Lemma lcomb_cols_seq (a : fmat) m c i : lcomb (map (mcol a) (seq 0 m)) c i = sumn m (fun k => kmul (c k) (a i k)).
Proof.
  unfold lcomb. rewrite map_length, seq_length. apply sumn_ext. intros k Hk. f_equal.
  rewrite (nth_indep _ vzero (mcol a 0)) by (rewrite map_length, seq_length; exact Hk).
  rewrite map_nth, seq_nth by exact Hk. reflexivity.
Qed.
Lemma rowspace_mul n m p a b w : meq n m (mmul n p a) b -> in_rowspace n m b w -> in_rowspace n m a w.
Proof.
  intros PA [c Hc]. exists (fun k => sumn n (fun i => kmul (c i) (p i k))).
  intros j Hj. rewrite Hc by exact Hj. rewrite !lcomb_rows.
  rewrite (sumn_ext n _ (fun i => sumn n (fun k => kmul (kmul (c i) (p i k)) (a k j)))).
  - rewrite sumn_swap. apply sumn_ext. intros k Hk. rewrite sumn_mul_r. reflexivity.
  - intros i Hi. rewrite <- PA by assumption. unfold mmul. rewrite <- sumn_mul_l. apply sumn_ext. intros; ring.
Qed.
Lemma rowspace_iff n m p a b w : invertible n p -> meq n m (mmul n p a) b ->
  (in_rowspace n m b w <-> in_rowspace n m a w).
Proof.
  intros (q & Q1 & Q2) PA. split; [apply (rowspace_mul n m p); exact PA|].
  apply (rowspace_mul n m q). intros i j Hi Hj.
  rewrite (mmul_ext n n m q q b (mmul n p a) (meq_refl _ _ _) (meq_sym _ _ _ _ PA) i j Hi Hj).
  rewrite <- mmul_assoc. rewrite (mmul_ext n n m _ mid a a Q2 (meq_refl _ _ _) i j Hi Hj).
  apply (mmul_id_l n m a); assumption.
Qed.
Lemma ech_rows_basis n m r piv b : ech n m r piv b ->
  is_basis m (in_rowspace n m b) (map (mrow b) (seq 0 r)).
Proof.
  intros E. split; [|split].
  - intros c H k Hk. rewrite map_length, seq_length in Hk.
    induction k as [k IH] using lt_wf_ind.
    specialize (H (piv k) (ech_lt _ _ _ _ _ E k Hk)). rewrite lcomb_rows in H.
    rewrite (sumn_delta _ k) in H.
    + rewrite (ech_one _ _ _ _ _ E) in H by exact Hk. rewrite <- H. ring.
    + exact Hk.
    + intros i Hi N. destruct (Nat.lt_trichotomy i k) as [L|[L|L]]; [|congruence|].
      * rewrite (IH i L Hi). ring.
      * rewrite (ech_left _ _ _ _ _ E i (piv k)); [ring|exact Hi|apply (ech_inc _ _ _ _ _ E); assumption].
  - apply Forall_forall. intros v Hv. apply in_map_iff in Hv. destruct Hv as (i & <- & Hi).
    apply in_seq in Hi. apply in_span_mem. apply in_map, in_seq. pose proof (ech_le _ _ _ _ _ E). lia.
  - intros w [c Hc]. exists c. intros j Hj. rewrite Hc by exact Hj. rewrite !lcomb_rows.
    apply sumn_mono; [apply (ech_le _ _ _ _ _ E)|].
    intros i Hi1 Hi2. rewrite (ech_zero _ _ _ _ _ E) by assumption. ring.
Qed.
Lemma is_basis_iff n (P Q : vec -> Prop) vs : (forall w, P w <-> Q w) -> is_basis n P vs -> is_basis n Q vs.
Proof.
  intros H (I & A & S). split; [exact I|split].
  - rewrite Forall_forall in *. intros v Hv. apply H. auto.
  - intros w Hw. apply S, H, Hw.
Qed.

(** ** Uniqueness of the reduced form *)
Lemma rref_unique n m r1 piv1 b1 r2 piv2 b2 p :
  rref n m r1 piv1 b1 -> rref n m r2 piv2 b2 ->
  invertible n p -> meq n m (mmul n p b1) b2 ->
  meq n m b1 b2.
Proof.
  intros R1 R2 I PB.
  assert (E1 := proj1 R1). assert (E2 := proj1 R2).
  (* by induction on the number of columns: columns and pivots agree *)
  assert (G : forall c, c <= m -> meq n c b1 b2 /\
    exists s, s <= r1 /\ s <= r2 /\ (forall i, i < s -> piv1 i = piv2 i /\ piv1 i < c) /\
      (forall i, s <= i -> i < r1 -> c <= piv1 i) /\ (forall i, s <= i -> i < r2 -> c <= piv2 i)).
  2:{ apply (G m). lia. }
  induction c; intros Hc.
  { split; [intros ? ? ? ?; lia|]. exists 0. repeat split; intros; lia. }
  destruct (IHc ltac:(lia)) as (Hm & s & S1 & S2 & Hs & T1 & T2). clear IHc.
  (* p fixes the first s unit vectors *)
  assert (PF : forall i k, i < n -> k < s -> p i k = if i =? k then k1 else k0).
  { intros i k Hi Hk. destruct (Hs k Hk) as [Hp Hlt].
    pose proof (PB i (piv1 k) Hi ltac:(lia)) as Q. unfold mmul in Q.
    assert (Hkn : k < n) by (pose proof (ech_le _ _ _ _ _ E1); lia).
    rewrite (sumn_delta n k) in Q.
    - rewrite (ech_one _ _ _ _ _ E1) in Q by lia. rewrite Hp in Q.
      rewrite (rref_unit _ _ _ _ _ R2 i k Hi ltac:(lia)) in Q. rewrite <- Q. ring.
    - exact Hkn.
    - intros l Hl N. rewrite (rref_unit _ _ _ _ _ R1 l k Hl ltac:(lia)).
      apply Nat.eqb_neq in N. rewrite N. ring. }
  (* a vector with support below s is fixed by p *)
  assert (PV : forall v : vec, (forall l, s <= l -> l < n -> v l = k0) ->
     forall i, i < n -> mvec n p v i = v i).
  { intros v Hv i Hi. unfold mvec.
    rewrite (sumn_ext n _ (fun l => kmul (mid i l) (v l))).
    - apply (mvec_id n v i Hi).
    - intros l Hl. destruct (le_lt_dec s l) as [L|L].
      + rewrite Hv by assumption. ring.
      + rewrite PF by assumption. reflexivity. }
  (* column c of b is supported below s unless c is a pivot *)
  assert (Sup : forall r piv b, rref n m r piv b -> (forall i, s <= i -> i < r -> c <= piv i) ->
     (s < r /\ piv s = c) \/ ((forall i, s <= i -> i < r -> S c <= piv i) /\ forall l, s <= l -> l < n -> b l c = k0)).
  { intros r piv b [E A] T.
    destruct (le_lt_dec r s) as [L|L].
    - right. split; [intros; lia|]. intros l Hl Hl'. apply (ech_zero _ _ _ _ _ E); lia.
    - destruct (Nat.eq_dec (piv s) c) as [Eq|N]; [left; auto|].
      assert (T' : forall i, s <= i -> i < r -> S c <= piv i).
      { intros i Hi Hr. destruct (Nat.eq_dec i s) as [->|Ni].
        - specialize (T s (le_n _) Hr). lia.
        - pose proof (ech_inc _ _ _ _ _ E s i ltac:(lia) Hr). specialize (T s (le_n _) L). lia. }
      right. split; [exact T'|]. intros l Hl Hln. destruct (le_lt_dec r l) as [G|G].
      + apply (ech_zero _ _ _ _ _ E); lia.
      + apply (ech_left _ _ _ _ _ E); [exact G|]. specialize (T' l Hl G). lia. }
  assert (PC : forall i, i < n -> mvec n p (mcol b1 c) i = b2 i c).
  { intros i Hi. apply (PB i c Hi). lia. }
  destruct (Sup r1 piv1 b1 R1 T1) as [(L1 & P1)|(T1' & Z1)];
  destruct (Sup r2 piv2 b2 R2 T2) as [(L2 & P2)|(T2' & Z2)].
  - split.
    + intros i j Hi Hj. destruct (Nat.eq_dec j c) as [->|N]; [|apply Hm; [exact Hi|lia]].
      rewrite <- P1 at 1. rewrite (rref_unit _ _ _ _ _ R1 i s Hi L1).
      rewrite <- P2. rewrite (rref_unit _ _ _ _ _ R2 i s Hi L2). reflexivity.
    + exists (S s). repeat split; try lia.
      * destruct (Nat.eq_dec i s) as [->|N]; [congruence|]. apply Hs. lia.
      * destruct (Nat.eq_dec i s) as [->|N]; [lia|]. destruct (Hs i ltac:(lia)). lia.
      * intros i Hi Hr. pose proof (ech_inc _ _ _ _ _ E1 s i ltac:(lia) Hr). lia.
      * intros i Hi Hr. pose proof (ech_inc _ _ _ _ _ E2 s i ltac:(lia) Hr). lia.
  - exfalso.
    (* mcol b1 c - mcol b2 c is killed by p *)
    assert (D : forall i, i < n -> ksub (b1 i c) (b2 i c) = k0).
    { apply (invertible_inj n p); [exact I|]. intros i Hi.
      transitivity (ksub (mvec n p (mcol b1 c) i) (mvec n p (mcol b2 c) i)).
      - unfold mvec. rewrite <- sumn_sub. apply sumn_ext. intros; unfold mcol; ring.
      - rewrite PC by exact Hi. rewrite (PV (mcol b2 c) Z2 i Hi). unfold mcol. ring. }
    assert (Hsn : s < n) by (pose proof (ech_le _ _ _ _ _ E1); lia).
    specialize (D s Hsn). rewrite (Z2 s (le_n _) Hsn) in D.
    rewrite <- P1 in D. rewrite (ech_one _ _ _ _ _ E1) in D by exact L1.
    apply (F_1_neq_0 (kth K)). rewrite <- D. ring.
  - exfalso.
    assert (Hsn : s < n) by (pose proof (ech_le _ _ _ _ _ E2); lia).
    pose proof (PC s Hsn) as Q. rewrite (PV (mcol b1 c) Z1 s Hsn) in Q. unfold mcol in Q.
    rewrite (Z1 s (le_n _) Hsn) in Q. rewrite <- P2 in Q. rewrite (ech_one _ _ _ _ _ E2) in Q by exact L2.
    apply (F_1_neq_0 (kth K)). symmetry. exact Q.
  - split.
    + intros i j Hi Hj. destruct (Nat.eq_dec j c) as [->|N]; [|apply Hm; [exact Hi|lia]].
      rewrite <- PC by exact Hi. rewrite (PV (mcol b1 c) Z1 i Hi). reflexivity.
    + exists s. repeat split; try lia; try assumption.
      * apply Hs. assumption.
      * destruct (Hs i H). lia.
Qed.

End Rref.
