(** * Rank facts about echelon forms *)
From Verif Require Import Base BaseLemmas FieldIface UtilModel MatModel AlgModel LinSpec RrefSpec MatProofs AlgProofs Ideal NoOverflow.
From Coq Require Import Field_theory Ring Field.

Section LinFacts.
Context {K : MathField}.
Add Field Kf15 : (kth K).
Notation fmat := (nat -> nat -> K).
Notation vec := (nat -> K).

(** every echelon form is row equivalent to a reduced one with the same pivots *)
Lemma ech_rref n m r piv (B : fmat) : ech n m r piv B ->
  exists P B', invertible n P /\ meq n m (mmul n P B) B' /\ rref n m r piv B'.
Proof.
  intros E. set (FS := ideal_spec K).
  set (s := mkform (F:=ideal_impl K) (mat_identity n) (from_fn n m (B : nat -> nat -> ideal_impl K))).
  assert (FO : form_ok FS n m B s B).
  { split; [apply (mrep_from_fn FS); intros; exact I|].
    exists mid. split; [apply identity_ok|]. split; [apply invertible_id|apply mmul_id_l]. }
  pose proof (to_rref_ok FS (ideal_stab K) (ideal_stab_spec K) n m B s B r piv FO E) as S.
  apply safe_nov in S; [|apply nov_to_rref; apply ideal_nov].
  destruct S as (s' & _ & B' & (_ & P & _ & I & M) & R). exists P, B'. repeat split; try assumption; apply R.
Qed.

Lemma ech_col_basis n m r piv (A B P : fmat) : ech n m r piv B -> invertible n P -> meq n m (mmul n P A) B ->
  is_basis n (in_colspace n m A) (map (mcol A) (map piv (seq 0 r))).
Proof.
  intros E I M. destruct (ech_rref _ _ _ _ _ E) as (Q & B' & IQ & MQ & R).
  apply (range_basis n m r piv A B' (mmul n Q P)).
  - exact R.
  - apply invertible_mul; assumption.
  - intros i j Hi Hj. rewrite mmul_assoc. rewrite (mmul_ext n n m Q Q _ B (meq_refl _ _ _) M i j Hi Hj). apply MQ; assumption.
  - apply nodup_map_inj; [apply seq_NoDup|]. intros i k Hi Hk Eq. apply in_seq in Hi, Hk. apply (ech_inj _ _ _ _ _ E); try assumption; lia.
  - intros j. rewrite is_piv_true, in_map_iff. split; intros (i & H1 & H2).
    + exists i. apply in_seq in H2. split; [lia|exact H1].
    + exists i. split; [exact H2|apply in_seq; lia].
Qed.
Lemma ech_row_basis n m r piv (A B P : fmat) : ech n m r piv B -> invertible n P -> meq n m (mmul n P A) B ->
  is_basis m (in_rowspace n m A) (map (mrow B) (seq 0 r)).
Proof.
  intros E I M. apply (is_basis_iff m (in_rowspace n m B)); [|apply (ech_rows_basis n m r piv); exact E].
  intros w. apply (rowspace_iff n m P); assumption.
Qed.
Lemma ech_ker_basis n m r piv (A B P : fmat) : ech n m r piv B -> invertible n P -> meq n m (mmul n P A) B ->
  exists ws, is_basis m (in_kernel n m A) ws /\ length ws = m - r.
Proof.
  intros E I M. destruct (ech_rref _ _ _ _ _ E) as (Q & B' & IQ & MQ & R).
  exists (ker_list m r piv B'). split.
  - apply (is_basis_iff m (in_kernel n m B')); [|apply (ker_basis n m r piv B'); exact R].
    intros w. symmetry. apply (kernel_iff n m (mmul n Q P)); [apply invertible_mul; assumption|].
    intros i j Hi Hj. rewrite mmul_assoc. rewrite (mmul_ext n n m Q Q _ B (meq_refl _ _ _) M i j Hi Hj). apply MQ; assumption.
  - unfold ker_list. rewrite map_length. pose proof (free_count n m r piv B' R). lia.
Qed.

(** the dimension of a space, when it is finite *)
Definition dimension (n : nat) (P : vec -> Prop) (k : nat) : Prop :=
  (exists vs, is_basis n P vs /\ length vs = k) /\ forall vs, is_basis n P vs -> length vs = k.
Lemma basis_dimension n P vs k : is_basis n P vs -> length vs = k -> dimension n P k.
Proof.
  intros B L. split; [eauto|]. intros ws B'. rewrite <- L. apply (basis_size n P); assumption.
Qed.
Lemma dimension_unique n P k k' : dimension n P k -> dimension n P k' -> k = k'.
Proof. intros [(vs & B & L) _] [_ U]. rewrite <- L. apply U. exact B. Qed.
Lemma dimension_iff n (P Q : vec -> Prop) k : (forall w, P w <-> Q w) -> dimension n P k -> dimension n Q k.
Proof.
  intros H [(vs & B & L) U]. apply (basis_dimension n Q vs); [|exact L]. apply (is_basis_iff n P); assumption.
Qed.
(** subspaces have smaller dimension *)
Lemma dimension_le n (P Q : vec -> Prop) k k' : (forall w, P w -> Q w) -> dimension n P k -> dimension n Q k' -> k <= k'.
Proof.
  intros H [(vs & (I & F & _) & L) _] [(ws & (_ & _ & S) & L') _]. rewrite <- L, <- L'.
  apply (steinitz n); [exact I|]. apply Forall_forall. intros w Hw. rewrite Forall_forall in F. auto.
Qed.

Lemma ech_square n piv (B : fmat) : ech n n n piv B -> forall i, i < n -> piv i = i.
Proof.
  intros E. assert (LB : forall i, i < n -> i <= piv i).
  { induction i; intros Hi; [lia|]. pose proof (ech_inc _ _ _ _ _ E i (S i) (Nat.lt_succ_diag_r i) Hi).
    specialize (IHi ltac:(lia)). lia. }
  assert (UB : forall k i, i + k + 1 = n -> piv i <= i).
  { induction k; intros i Hi.
    - pose proof (ech_lt _ _ _ _ _ E i ltac:(lia)). lia.
    - pose proof (ech_inc _ _ _ _ _ E i (i + 1) ltac:(lia) ltac:(lia)). specialize (IHk (i + 1) ltac:(lia)). lia. }
  intros i Hi. pose proof (LB i Hi). pose proof (UB (n - i - 1) i ltac:(lia)). lia.
Qed.
Lemma rref_full_identity n piv (B : fmat) : rref n n n piv B -> meq n n B mid.
Proof.
  intros R i j Hi Hj. pose proof (ech_square n piv B (proj1 R)) as EP.
  rewrite <- (EP j Hj) at 1. rewrite (rref_unit n n n piv B R i j Hi Hj). reflexivity.
Qed.
(** below full rank the matrix is singular *)
Lemma ech_singular n r piv (A B P : fmat) : ech n n r piv B -> r < n -> invertible n P -> meq n n (mmul n P A) B ->
  ~ invertible n A.
Proof.
  intros E L I M IA. pose proof (ech_le _ _ _ _ _ E).
  assert (IB : invertible n B) by (apply (invertible_ext n (mmul n P A)); [exact M|apply invertible_mul; assumption]).
  destruct IB as (Q & Q1 & _). specialize (Q1 (n - 1) (n - 1) ltac:(lia) ltac:(lia)).
  unfold mmul in Q1. rewrite sumn_zero' in Q1.
  - rewrite mid_eq in Q1. exact (F_1_neq_0 (kth K) (eq_sym Q1)).
  - intros l Hl. rewrite (ech_zero _ _ _ _ _ E) by lia. ring.
Qed.
(** a left inverse of a square matrix that is invertible is the inverse on both sides *)
Lemma invertible_comm n (P A : fmat) : invertible n P -> meq n n (mmul n P A) mid -> meq n n (mmul n A P) mid.
Proof.
  intros (Q & Q1 & Q2) M.
  assert (EA : meq n n A Q).
  { intros i j Hi Hj. rewrite <- (mmul_id_l n n A i j Hi Hj).
    rewrite <- (mmul_ext n n n _ _ A A Q2 (meq_refl _ _ _) i j Hi Hj). rewrite mmul_assoc.
    rewrite (mmul_ext n n n Q Q _ _ (meq_refl _ _ _) M i j Hi Hj). apply (mmul_id_r n n Q i j Hi Hj). }
  eapply meq_trans; [apply mmul_ext; [exact EA|apply meq_refl]|exact Q2].
Qed.

Lemma colspace_trans n m (A : fmat) w : in_colspace m n (mtrans A) w <-> in_rowspace n m A w.
Proof. reflexivity. Qed.
Lemma colspace_mul n k m (A B : fmat) w : in_colspace n m (mmul k A B) w -> in_colspace n k A w.
Proof.
  intros (c & H). exists (fun l => sumn m (fun j => kmul (c j) (B l j))). intros i Hi. rewrite (H i Hi).
  rewrite !lcomb_cols_seq. unfold mmul.
  rewrite (sumn_ext m _ (fun j => sumn k (fun l => kmul (c j) (kmul (A i l) (B l j))))) by (intros; rewrite sumn_mul_l; reflexivity).
  rewrite sumn_swap. apply sumn_ext. intros l _. rewrite <- sumn_mul_r. apply sumn_ext. intros. ring.
Qed.
Lemma rowspace_mul_r n k m (A B : fmat) w : in_rowspace n m (mmul k A B) w -> in_rowspace k m B w.
Proof.
  intros (c & H). exists (fun l => sumn n (fun i => kmul (c i) (A i l))). intros j Hj. rewrite (H j Hj).
  rewrite !lcomb_rows. unfold mmul.
  rewrite (sumn_ext n _ (fun i => sumn k (fun l => kmul (c i) (kmul (A i l) (B l j))))) by (intros; rewrite sumn_mul_l; reflexivity).
  rewrite sumn_swap. apply sumn_ext. intros l _. rewrite <- sumn_mul_r. apply sumn_ext. intros. ring.
Qed.
Lemma in_colspace_ext n m (A A' : fmat) w : meq n m A A' -> in_colspace n m A w -> in_colspace n m A' w.
Proof.
  intros H (c & E). exists c. intros i Hi. rewrite (E i Hi), !lcomb_cols_seq. apply sumn_ext. intros j Hj. rewrite H by assumption. reflexivity.
Qed.
Lemma in_rowspace_ext n m (A A' : fmat) w : meq n m A A' -> in_rowspace n m A w -> in_rowspace n m A' w.
Proof.
  intros H (c & E). exists c. intros j Hj. rewrite (E j Hj), !lcomb_rows. apply sumn_ext. intros i Hi. rewrite H by assumption. reflexivity.
Qed.
End LinFacts.
