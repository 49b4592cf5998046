(** * Property C111: determinants and the LU decomposition.

    The crate computes no determinant, but its LU decomposition determines one: [det] (DetSpec) is the expansion
    along the first column.  The product of the signs of the permutation and of the two diagonals is the
    determinant; the determinant behaves under the products, transposes and row operations of the crate as
    it should, and it vanishes exactly when the computed rank is not full. *)
From Coq Require Import ZArith QArith Qcanon Permutation.
From Verif Require Import Base BaseLemmas IntModel RatModel FieldIface RatProofs UtilModel MatModel AlgModel
  LinSpec RrefSpec MatProofs AlgProofs Ideal NoOverflow LinFacts PropMat PropLin DetSpec.
From Coq Require Import Field_theory Ring Field.
Local Open Scope nat_scope.

Section Math.
Context {K : MathField}.
Add Field Kf37 : (kth K).
Notation fmat := (nat -> nat -> K).

Lemma is_perm_permutation n p : is_perm n p -> Permutation p (seq 0 n).
Proof.
  intros (L & B & I). apply NoDup_Permutation_bis.
  - apply NoDup_nth with (d := 0). rewrite L. exact I.
  - rewrite seq_length. lia.
  - intros x Hx. apply (In_nth _ _ 0) in Hx. destruct Hx as (i & Hi & <-). rewrite L in Hi. apply in_seq. specialize (B i Hi). lia.
Qed.

Lemma ech_upper n r piv (U : fmat) : ech n n r piv U -> forall i j, j < i -> i < n -> U i j = k0.
Proof.
  intros E i j L Hi. destruct (Nat.lt_ge_cases i r) as [G|G].
  - apply (ech_left _ _ _ _ _ E i j G).
    assert (H : forall k, k < r -> k <= piv k).
    { induction k as [|k IH]; intros Hk; [lia|]. pose proof (ech_inc _ _ _ _ _ E k (S k)). specialize (IH ltac:(lia)). lia. }
    specialize (H i G). lia.
  - apply (ech_zero _ _ _ _ _ E); lia.
Qed.
Lemma ech_diagonal n r piv (U : fmat) : ech n n r piv U -> prodk n (fun i => U i i) = if r =? n then k1 else k0.
Proof.
  intros E. pose proof (ech_le _ _ _ _ _ E) as Lr. destruct (Nat.eqb_spec r n) as [->|N].
  - apply prodk_one. intros i Hi. rewrite <- (ech_square n piv U E i Hi) at 2. apply (ech_one _ _ _ _ _ E i Hi).
  - apply (prodk_zero n _ r); [lia|]. apply (ech_zero _ _ _ _ _ E); lia.
Qed.

(** every square matrix has an LU decomposition: run the algorithm over the field itself *)
Lemma plu_exists n (A : fmat) : exists l L U r piv, Permutation l (seq 0 n) /\
  (forall i j, i < j -> j < n -> L i j = k0) /\ (forall i, i < n -> L i i <> k0) /\ ech n n r piv U /\
  meq n n (mmul n (pmat l) A) (mmul n L U).
Proof.
  assert (R : mrep (ideal_spec K) (from_fn n n (A : nat -> nat -> ideal_impl K)) n n A) by (apply (mrep_from_fn (ideal_spec K)); intros; exact I).
  pose proof (lu_ok (ideal_spec K) (ideal_stab K) (ideal_stab_spec K) _ _ _ _ R) as S.
  apply safe_nov in S; [|apply nov_lu; apply ideal_nov].
  destruct S as ([[p l] u] & _ & pv & L & U & r & piv & IP & _ & _ & _ & H1 & H2 & E & M).
  exists pv, L, U, r, piv. split; [apply is_perm_permutation; exact IP|]. auto.
Qed.

Lemma pmat_rows n l (a : fmat) : Permutation l (seq 0 n) -> meq n n (mmul n (pmat l) a) (rows l a).
Proof. intros P i j Hi Hj. apply pmat_mul; assumption. Qed.

Lemma det_mul n (A B : fmat) : det n (mmul n A B) = kmul (det n A) (det n B).
Proof.
  destruct (plu_exists n A) as (l & L & U & r & piv & P & LL & LD & E & M).
  pose proof (ech_upper n r piv U E) as UU.
  assert (H1 : kmul (alt (inversions l)) (det n A) = kmul (prodk n (fun i => L i i)) (prodk n (fun i => U i i))).
  { rewrite <- det_rows by exact P. rewrite <- (det_ext n _ _ (pmat_rows n l A P)), (det_ext n _ _ M).
    rewrite det_mul_lower by exact LL. rewrite det_upper by exact UU. reflexivity. }
  assert (H2 : kmul (alt (inversions l)) (det n (mmul n A B)) = kmul (prodk n (fun i => L i i)) (kmul (prodk n (fun i => U i i)) (det n B))).
  { rewrite <- det_rows by exact P. rewrite <- (det_ext n _ _ (pmat_rows n l _ P)).
    rewrite <- det_mul_upper by exact UU. rewrite <- det_mul_lower by exact LL. apply det_ext.
    intros i j Hi Hj. rewrite <- mmul_assoc. rewrite <- (mmul_assoc n n L). apply (mmul_ext n n n _ _ B B M); try assumption. intros x y _ _; reflexivity. }
  pose proof (alt_sq (K:=K) (inversions l)) as Sq.
  transitivity (kmul (kmul (alt (inversions l)) (alt (inversions l))) (det n (mmul n A B))); [rewrite Sq; ring|].
  transitivity (kmul (alt (inversions l)) (kmul (alt (inversions l)) (det n (mmul n A B)))); [ring|]. rewrite H2.
  transitivity (kmul (kmul (alt (inversions l)) (kmul (prodk n (fun i => L i i)) (prodk n (fun i => U i i)))) (det n B)); [ring|].
  rewrite <- H1. transitivity (kmul (kmul (alt (inversions l)) (alt (inversions l))) (kmul (det n A) (det n B))); [ring|]. rewrite Sq. ring.
Qed.

Lemma permutation_pmat n l : Permutation l (seq 0 n) -> is_permutation_matrix n (pmat (K:=K) l).
Proof.
  intros P. pose proof (Permutation_length P) as L. rewrite seq_length in L. exists (fun i => nth i l 0). split; [|split].
  - intros i Hi. assert (In (nth i l 0) l) as H by (apply nth_In; lia). apply (Permutation_in _ P), in_seq in H. lia.
  - intros i j Hi Hj. apply (proj1 (NoDup_nth l 0)); try lia. apply (Permutation_NoDup (Permutation_sym P)), seq_NoDup.
  - reflexivity.
Qed.
Lemma det_pmat n l : Permutation l (seq 0 n) -> det n (pmat (K:=K) l) = alt (inversions l).
Proof.
  intros P. transitivity (det n (rows l (mid (K:=K)))); [apply det_ext; intros i j _ _; reflexivity|].
  rewrite det_rows by exact P. rewrite det_id. ring.
Qed.

Lemma det_trans n (A : fmat) : det n (mtrans A) = det n A.
Proof.
  destruct (plu_exists n A) as (l & L & U & r & piv & P & LL & LD & E & M).
  pose proof (ech_upper n r piv U E) as UU.
  pose proof (det_plu n l A L U P M LL) as D. rewrite D.
  set (x := alt (inversions l)). pose proof (alt_sq (K:=K) (inversions l)) as Sq. fold x in Sq.
  assert (DP : det n (mtrans (pmat (K:=K) l)) = x).
  { assert (Q : kmul (det n (mtrans (pmat (K:=K) l))) x = k1).
    { unfold x. rewrite <- (det_pmat n l P), <- det_mul, <- (det_id n). apply det_ext. apply permutation_matrix_trans. apply permutation_pmat; exact P. }
    transitivity (kmul (det n (mtrans (pmat (K:=K) l))) (kmul x x)); [rewrite Sq; ring|].
    transitivity (kmul (kmul (det n (mtrans (pmat (K:=K) l))) x) x); [ring|]. rewrite Q. ring. }
  assert (H : kmul (det n (mtrans A)) x = kmul (det n U) (prodk n (fun i => L i i))).
  { rewrite <- DP, <- det_mul.
    transitivity (det n (mmul n (mtrans U) (mtrans L))).
    - apply det_ext. intros i j Hi Hj. rewrite <- !mmul_trans. unfold mtrans. apply M; assumption.
    - rewrite det_mul. rewrite (det_lower n (mtrans U)) by (intros i j H1 H2; apply UU; assumption).
      rewrite (det_upper n (mtrans L)) by (intros i j H1 H2; apply LL; assumption). rewrite (det_upper n U UU). reflexivity. }
  transitivity (kmul (kmul (det n (mtrans A)) x) x); [transitivity (kmul (det n (mtrans A)) (kmul x x)); [rewrite Sq; ring|ring]|].
  rewrite H. ring.
Qed.

Lemma det_invertible n (A : fmat) : invertible n A <-> det n A <> k0.
Proof.
  split.
  - intros (Q & M & _) Z. apply (F_1_neq_0 (kth K)). rewrite <- (det_id n), <- (det_ext n _ _ M), det_mul, Z. ring.
  - intros N. 
    assert (R : mrep (ideal_spec K) (from_fn n n (A : nat -> nat -> ideal_impl K)) n n A) by (apply (mrep_from_fn (ideal_spec K)); intros; exact I).
    pose proof (row_echelon_ok (ideal_spec K) (ideal_stab K) (ideal_stab_spec K) _ _ _ _ R) as S.
    apply safe_nov in S; [|apply nov_row_echelon; apply ideal_nov].
    destruct S as (s & _ & B & r & piv & (_ & P & _ & IP & M) & E).
    destruct (ech_rref n n r piv B E) as (P' & B' & IP' & M' & E').
    pose proof (ech_le _ _ _ _ _ E) as Lr. destruct (Nat.lt_ge_cases r n) as [G|G].
    + exfalso. assert (Z : det n B = k0) by (apply (det_zero_row n B r G); intros j Hj; apply (ech_zero _ _ _ _ _ E); lia).
      rewrite <- (det_ext n _ _ M), det_mul in Z. destruct IP as (Q & MQ & _).
      apply N. transitivity (kmul (det n Q) (kmul (det n P) (det n A))); [|rewrite Z; ring].
      transitivity (kmul (kmul (det n P) (det n Q)) (det n A)); [|ring]. rewrite <- det_mul, (det_ext n _ _ MQ), det_id. ring.
    + assert (r = n) by lia. subst r. pose proof (rref_full_identity n piv B' E') as EI.
      assert (I2 : invertible n (mmul n P' P)) by (apply invertible_mul; assumption).
      assert (MM : meq n n (mmul n (mmul n P' P) A) mid).
      { intros i j Hi Hj. rewrite mmul_assoc. rewrite <- (EI i j Hi Hj), <- (M' i j Hi Hj).
        apply (mmul_ext n n n P' P' _ B); try assumption. intros x y _ _; reflexivity. }
      exists (mmul n P' P). split; [apply invertible_comm; assumption|exact MM].
Qed.
End Math.

Section PropDet.
Context {F : FieldImpl} {K : MathField} (FS : FieldSpec F K) (T : StabImpl F) (TS : StabSpec FS T).
Add Field Kf38 : (kth K).
Notation mat := (mat F).
Notation val := (mden FS).
Notation okm := (okm FS).

(** sign of the permutation, times the two diagonals *)
Theorem C111_lu : forall a n, okm n n a ->
  safe (mat_lu T a) (fun plu => let '(p, l, u) := plu in
    exists sigma, Permutation sigma (seq 0 n) /\
      (forall i j, i < n -> j < n -> val p i j = if nth i sigma 0 =? j then k1 else k0) /\
      det n (val a) = kmul (alt (inversions sigma)) (kmul (prodk n (fun i => val l i i)) (prodk n (fun i => val u i i))) /\
      (invertible n (val a) -> prodk n (fun i => val u i i) = k1) /\
      (~ invertible n (val a) -> prodk n (fun i => val u i i) = k0)).
Proof.
  intros a n W. apply okm_mrep in W. eapply safe_mono; [apply (lu_ok FS T TS _ _ _ _ W)|].
  intros [[p l] u] (pv & L & U & r & piv & IP & Rp & Rl & Ru & LL & LD & E & M).
  apply mrep_okm in Rp, Rl, Ru. destruct Rp as [_ Vp], Rl as [_ Vl], Ru as [_ Vu].
  pose proof (is_perm_permutation n pv IP) as P.
  assert (DL : prodk n (fun i => val l i i) = prodk n (fun i => L i i)) by (apply prodk_ext; intros i Hi; apply Vl; assumption).
  assert (DU : prodk n (fun i => val u i i) = prodk n (fun i => U i i)) by (apply prodk_ext; intros i Hi; apply Vu; assumption).
  assert (D : det n (val a) = kmul (alt (inversions pv)) (kmul (prodk n (fun i => L i i)) (prodk n (fun i => U i i)))).
  { rewrite <- (det_upper n U (ech_upper n r piv U E)). apply (det_plu n pv (val a) L U P M LL). }
  exists pv. split; [exact P|]. split; [exact Vp|]. rewrite DL, DU. split; [exact D|].
  rewrite det_invertible, D, (ech_diagonal n r piv U E).
  pose proof (F_1_neq_0 (kth K)) as N1.
  destruct (r =? n); split; intros H; try reflexivity.
  - exfalso. apply H. intros Z. apply (prodk_nonzero n (fun i => L i i) LD).
    pose proof (alt_sq (K:=K) (inversions pv)) as Sq.
    transitivity (kmul (alt (inversions pv)) (kmul (alt (inversions pv)) (kmul (prodk n (fun i => L i i)) k1))); [|rewrite Z; ring].
    transitivity (kmul (kmul (alt (inversions pv)) (alt (inversions pv))) (prodk n (fun i => L i i))); [rewrite Sq; ring|ring].
  - exfalso. apply H. ring.
Qed.

Theorem C111_mul : forall a b c n, okm n n a -> okm n n b -> mat_mul a b = Ok c ->
  det n (val c) = kmul (det n (val a)) (det n (val b)).
Proof.
  intros a b c n Wa Wb H. apply okm_mrep in Wa, Wb. pose proof (mat_mul_ok FS a b n n n _ _ Wa Wb) as S. rewrite H in S.
  simpl in S. apply mrep_okm in S. destruct S as [_ V]. rewrite (det_ext n _ _ V). apply det_mul.
Qed.

Theorem C111_transpose : forall a b n, okm n n a -> mat_transpose a = Ok b -> det n (val b) = det n (val a).
Proof.
  intros a b n Wa H. apply okm_mrep in Wa. destruct (transpose_ok FS a n n _ Wa) as (b' & E & R). rewrite H in E. injection E as <-.
  apply mrep_okm in R. rewrite (det_ext n _ _ (proj2 R)). apply det_trans.
Qed.

Theorem C111_row_operations : forall a n, okm n n a ->
  (forall i x b, i < n -> fwf FS x -> mat_scale_row a i x = Ok b -> det n (val b) = kmul (den FS x) (det n (val a))) /\
  (forall s t b, s < n -> t < n -> s <> t -> mat_permute_rows a s t = Ok b -> det n (val b) = kopp (det n (val a))) /\
  (forall s t x b, s < n -> t < n -> s <> t -> fwf FS x -> mat_replace_row a s t x = Ok b -> det n (val b) = det n (val a)).
Proof.
  intros a n Wa. apply okm_mrep in Wa. set (A := val a) in *. split; [|split].
  - intros i x b Hi Wx H. pose proof (scale_row_ok FS a n n A i x Wa Hi Wx) as S. rewrite H in S. simpl in S.
    apply mrep_okm in S. rewrite (det_ext n _ _ (proj2 S)).
    transitivity (det n (upd A i (fun j => kadd (kmul (den FS x) (A i j)) k0))).
    { apply det_ext. intros r c _ _. unfold op_scale, upd. destruct (Nat.eqb_spec r i) as [->|]; [ring|reflexivity]. }
    rewrite det_linear by exact Hi. rewrite (det_zero_row n (upd A i (fun _ => k0)) i Hi) by (intros j _; rewrite upd_same; reflexivity).
    rewrite <- (det_row n A A i Hi) by reflexivity. ring.
  - intros s t b Hs Ht N H. destruct (permute_rows_ok FS a n n A s t Wa Hs Ht) as (b' & E & R). rewrite H in E. injection E as <-.
    apply mrep_okm in R. rewrite (det_ext n _ _ (proj2 R)).
    destruct (Nat.lt_gt_cases s t) as [C _]. destruct (C N) as [L|L].
    + apply (det_swap n A s t L Ht).
    + rewrite <- (det_swap n A t s L Hs). apply det_ext. intros i j _ _. unfold op_swap, swapi.
      destruct (Nat.eqb_spec i s), (Nat.eqb_spec i t); try reflexivity; lia.
  - intros s t x b Hs Ht N Wx H. pose proof (replace_row_ok FS a n n A s t x Wa Hs Ht Wx) as S. rewrite H in S. simpl in S.
    apply mrep_okm in S. rewrite (det_ext n _ _ (proj2 S)).
    transitivity (det n (upd A t (fun j => kadd (kmul (den FS x) (A s j)) (A t j)))).
    { apply det_ext. intros i j _ _. unfold op_repl, upd. destruct (Nat.eqb_spec i t) as [->|]; [ring|reflexivity]. }
    rewrite det_linear by exact Ht. rewrite <- (det_row n A A t Ht) by reflexivity.
    assert (Z : det n (upd A t (A s)) = k0).
    { assert (Q : forall j, upd A t (A s) s j = upd A t (A s) t j) by (intros j; rewrite upd_same, upd_other by exact N; reflexivity).
      destruct (Nat.lt_gt_cases s t) as [C _]. destruct (C N) as [L|L].
      - apply (det_equal_rows n _ s t L Ht). intros j _. apply Q.
      - apply (det_equal_rows n _ t s L Hs). intros j _. symmetry. apply Q. }
    rewrite Z. ring.
Qed.

(** the rank is full exactly when the determinant does not vanish; then [fp] has the inverse determinant *)
Theorem C111_rank : forall a n s, okm n n a -> rref_of T a s ->
  (form_rank T s = Ok n <-> det n (val a) <> k0) /\
  (form_rank T s = Ok n -> kmul (det n (val (fp s))) (det n (val a)) = k1).
Proof.
  intros a n s W H. destruct (C71_inverse FS T TS a n s W H) as [I E]. rewrite E at 1. split; [apply det_invertible|].
  intros R. destruct (I R) as (_ & M & _). rewrite <- det_mul, (det_ext n _ _ M). apply det_id.
Qed.
End PropDet.

(** a 3 x 3 matrix with determinant -4: one exchange of rows, diagonals 1/2, 2, 4 and 1, 1, 1 *)
Definition ex_d := ex_mat 3 3 [(0,1);(2,1);(1,1);(1,2);(1,1);(0,1);(3,1);(0,1);(1,1)]%Z.
Example ex_d_ok : okm rat_spec 3 3 ex_d. Proof. split; [apply ex_mat_ok; reflexivity|split; reflexivity]. Qed.
Example C111_ex : mat_lu RT ex_d = Ok
   (ex_mat 3 3 [(0,1);(1,1);(0,1);(1,1);(0,1);(0,1);(0,1);(0,1);(1,1)]%Z,
    ex_mat 3 3 [(1,2);(0,1);(0,1);(0,1);(2,1);(0,1);(3,1);(-6,1);(4,1)]%Z,
    ex_mat 3 3 [(1,1);(2,1);(0,1);(0,1);(1,1);(1,2);(0,1);(0,1);(1,1)]%Z) /\
  inversions [1; 0; 2] = 1 /\ det (K:=QcField) 3 (mden rat_spec ex_d) = Q2Qc (-4 # 1).
Proof. split; [reflexivity|]. split; [reflexivity|]. apply Qc_is_canon. reflexivity. Qed.
Definition ex_d_rref : form (F:=rat_impl Debug) := mkform
  (ex_mat 3 3 [(-1,4);(1,2);(1,4);(2,16);(3,4);(-1,8);(3,4);(-3,2);(1,4)]%Z)
  (ex_mat 3 3 [(1,1);(0,1);(0,1);(0,1);(1,1);(0,1);(0,1);(0,1);(1,1)]%Z).
Example C111_ex_rank : rref_of RT ex_d ex_d_rref /\ form_rank RT ex_d_rref = Ok 3 /\
  det (K:=QcField) 3 (mden rat_spec (fp ex_d_rref)) = Q2Qc (-1 # 4).
Proof. split; [apply ex_rref_of; reflexivity|]. split; [reflexivity|]. apply Qc_is_canon. reflexivity. Qed.
(** a singular one *)
Definition ex_d2 := ex_mat 2 2 [(1,2);(3,1);(1,1);(6,1)]%Z.
Example C111_ex_singular : okm rat_spec 2 2 ex_d2 /\ det (K:=QcField) 2 (mden rat_spec ex_d2) = k0 /\
  mat_mul ex_d2 ex_b = Ok (ex_mat 2 2 [(1,1);(4,1);(2,1);(8,1)]%Z) /\ mat_permute_rows ex_b 0 1 = Ok (ex_mat 2 2 [(1,3);(1,1);(0,1);(2,1)]%Z) /\
  mat_transpose ex_b = Ok (ex_mat 2 2 [(0,1);(1,3);(2,1);(1,1)]%Z).
Proof.
  split; [split; [apply ex_mat_ok; reflexivity|split; reflexivity]|]. split; [apply Qc_is_canon; reflexivity|].
  repeat split; reflexivity.
Qed.

Print Assumptions C111_lu.
Print Assumptions C111_mul.
Print Assumptions C111_transpose.
Print Assumptions C111_row_operations.
Print Assumptions C111_rank.
