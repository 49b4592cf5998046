(** * C121: the unit tests of the crate hold for all inputs, not only for the ones they run through.

    [safe x (fun _ => True)]: the run overflows or ends normally; no assertion fails. *)
From Coq Require Import ZArith QArith Qcanon.
From Verif Require Import Base BaseLemmas IntModel RatModel FieldIface RatProofs UtilModel MDegModel OrdModel PolyModel CompModel MatModel AlgModel
  MonoSpec MDegProofs OrdProofs PolySpec PolyProofs GroebnerSpec DivProofs DivSpec CompMono LinSpec RrefSpec MatProofs AlgProofs LinFacts
  PropMat PropLin PropPoly PropDiv FloatModel FloatExact FloatSim Param ParamMat Transfer PropFloat DisplayModel MatDisplay DebugModel Ideal TestsModel.
From Coq Require Import Ring Field Setoid Morphisms Sorted Permutation Lia.
Local Open Scope nat_scope.

Definition passes (x : res unit) : Prop := safe x (fun _ => True).
Lemma passes_assert (x : res bool) : safe x (fun b => b = true) -> passes (b <- x ;; assert b).
Proof. intros H. unfold passes. eapply safe_bind; [exact H|]. intros b ->. exact I. Qed.
Lemma assert_bind {B} (f : unit -> res B) Q : safe (f tt) Q -> safe (x <- assert true ;; f x) Q.
Proof. intros H. exact H. Qed.

(** independent vectors are a basis of the row space of the matrix with these rows *)
Section Rows.
Context {K : MathField}.
Add Field Kf53 : (kth K).
Lemma rows_basis m (A : nat -> nat -> K) vs : (forall q i, q < length vs -> i < m -> A q i = nth q vs vzero i) -> lin_indep m vs ->
  is_basis m (in_rowspace (length vs) m A) vs.
Proof.
  intros H I.
  assert (LC : forall c i, i < m -> lcomb (map (LinSpec.mrow A) (seq 0 (length vs))) c i = lcomb vs c i).
  { intros c i Hi. unfold lcomb. rewrite map_length, seq_length. apply sumn_ext. intros q Hq. f_equal.
    rewrite (nth_indep _ vzero (LinSpec.mrow A 0)) by (rewrite map_length, seq_length; exact Hq). rewrite map_nth, seq_nth by exact Hq.
    unfold LinSpec.mrow. cbn [plus]. apply H; assumption. }
  split; [exact I|]. split.
  - apply Forall_forall. intros w Iw. destruct (In_nth _ _ vzero Iw) as (q & Hq & <-).
    exists (fun j => if j =? q then k1 else k0). intros i Hi. rewrite LC by exact Hi. unfold lcomb. rewrite (sumn_delta (length vs) q _ Hq).
    + rewrite Nat.eqb_refl. ring.
    + intros j Hj N. destruct (Nat.eqb_spec j q) as [|]; [contradiction|ring].
  - intros w (c & Hc). exists c. intros i Hi. rewrite <- LC by exact Hi. apply Hc. exact Hi.
Qed.
End Rows.
(** ** linalg/algorithm.rs over Rational *)
Notation RT := (rat_stab Debug).
Notation okr := (okm rat_spec).
Notation rval := (mden rat_spec).
Lemma eps_true a b n m A B : mrep rat_spec a n m A -> mrep rat_spec b n m B -> meq n m A B -> safe (mat_epsilon_equals RT a b) (fun t => t = true).
Proof.
  intros Ra Rb E. apply mrep_okm in Ra as [(Wa & Na & Ma) Va]. apply mrep_okm in Rb as [(Wb & Nb & Mb) Vb].
  eapply safe_mono; [apply (C58_epsilon_equals a b Wa Wb); congruence|]. intros t H. apply H. rewrite Na, Ma.
  eapply meq_trans; [exact Va|]. eapply meq_trans; [exact E|]. apply meq_sym. exact Vb.
Qed.
Theorem C121_lu : forall a n m, okr n m a -> passes (lu_check RT a).
Proof.
  intros a n m W. unfold passes, lu_check.
  eapply safe_bind; [exact (safe_and _ _ _ (C49_lu rat_spec RT rat_stab_spec a n m W) (C50_lu_shapes rat_spec RT rat_stab_spec a n m W))|].
  intros [[p l] u] ((Wp & Wl & Wu & _ & _ & E) & (_ & _ & _ & EL & EU)).
  apply okm_mrep in Wp, Wl, Wu, W. destruct (transpose_ok rat_spec _ _ _ _ Wp) as (pt & -> & Rt). cbn [bind].
  eapply safe_bind; [apply (mat_mul_ok rat_spec _ _ _ _ _ _ _ Rt Wl)|]. intros x Rx.
  eapply safe_bind; [apply (mat_mul_ok rat_spec _ _ _ _ _ _ _ Rx Wu)|]. intros prod Rp.
  rewrite EL, EU. cbn [bind assert]. apply passes_assert. eapply eps_true; [exact W|exact Rp|].
  eapply meq_trans; [exact E|]. intros i j Hi Hj. symmetry. apply mmul_assoc.
Qed.
Theorem C121_row_echelon : forall a n m, okr n m a -> passes (row_echelon_check RT a).
Proof.
  intros a n m W. unfold passes, row_echelon_check.
  eapply safe_bind_eq; [exact (C51_row_echelon rat_spec RT rat_stab_spec a n m W)|]. intros s Es ((Wp & Wb & _ & M) & _).
  eapply safe_bind_eq; [exact (C49_lu rat_spec RT rat_stab_spec a n m W)|]. intros [[p l] u] El (_ & _ & Wu & _).
  apply okm_mrep in Wp, Wb, Wu, W.
  eapply safe_bind; [eapply eps_true; [exact Wu|exact Wb|]|].
  { rewrite (C70_lu_u_is_row_echelon_b RT a p l u s El Es). apply meq_refl. }
  intros b ->. cbn [bind assert]. eapply safe_bind; [apply (mat_mul_ok rat_spec _ _ _ _ _ _ _ Wp W)|]. intros x Rx.
  apply passes_assert. eapply eps_true; [exact Rx|exact Wb|exact M].
Qed.

(** the function is_rref of the test module accepts every reduced form; casting a column to i32 needs fewer than 2^31 columns *)
Section IsRref.
Context {F : FieldImpl} {K : MathField} (FS : FieldSpec F K) (T : StabImpl F) (TS : StabSpec FS T).
Lemma as_i32_small n : (Z.of_nat n < 2 ^ 31)%Z -> as_i32 n = Z.of_nat n.
Proof. intros H. unfold as_i32. rewrite Z.mod_small by lia. lia. Qed.
Lemma is_rref_ok a n m r piv A : mrep FS a n m A -> rref n m r piv A -> (Z.of_nat m < 2 ^ 31)%Z -> is_rref T a = Ok true.
Proof.
  intros R (E & CL) Hm. pose proof R as (_ & Rn & Rm & _). unfold is_rref. rewrite Rn.
  assert (G : forall l k prev, k + l = n -> (forall i, k <= i -> i < r -> (prev < Z.of_nat (piv i))%Z) -> is_rref_from T a prev (seq k l) = Ok true).
  { induction l as [|l IH]; intros k prev Hk Hp; [reflexivity|]. cbn [seq is_rref_from].
    rewrite (first_nonzero_ech FS T TS _ _ _ _ _ _ k R E) by lia. cbn [bind]. destruct (Nat.ltb_spec k r) as [Hr|Hr].
    - pose proof (ech_lt _ _ _ _ _ E k Hr) as Hc.
      assert (C : forall rows, (forall q, In q rows -> q < n) -> col_cleared_from T a (piv k) k rows = Ok true).
      { induction rows as [|q rows IHr]; intros Hq; [reflexivity|]. cbn [col_cleared_from]. destruct (Nat.eqb_spec q k) as [|N].
        - apply IHr. intros x Ix. apply Hq. right. exact Ix.
        - pose proof (Hq q (or_introl eq_refl)) as Hqn.
          destruct (mrep_get FS _ _ _ _ q (piv k) R Hqn Hc) as (x & -> & Wx & Dx & _). cbn [bind].
          assert (Z0 : A q (piv k) = k0).
          { destruct (Nat.lt_ge_cases q k) as [L|L]; [apply CL; assumption|]. destruct (Nat.lt_ge_cases q r) as [L'|L'].
            - apply (ech_left _ _ _ _ _ E); [exact L'|]. apply (ech_inc _ _ _ _ _ E); lia.
            - apply (ech_zero _ _ _ _ _ E); lia. }
          rewrite (proj2 (eps0 _ _ TS x Wx)) by congruence. apply IHr. intros y Iy. apply Hq. right. exact Iy. }
      unfold is_col_cleared. rewrite Rn, C by (intros q I; apply in_seq in I; lia). cbn [bind negb].
      rewrite as_i32_small by lia. destruct (Z.leb_spec (Z.of_nat (piv k)) prev) as [L|L]; [specialize (Hp k (Nat.le_refl _) Hr); lia|].
      apply IH; [lia|]. intros i Hi Hir. apply inj_lt. apply (ech_inc _ _ _ _ _ E); lia.
    - apply IH; [lia|]. intros i Hi Hir. lia. }
  apply G; [lia|]. intros i _ _. lia.
Qed.
(** the function is_rref of the test module decides the shape of a reduced form, except that it does not look at the values of the pivots *)
Definition reduced_shape (n m r : nat) (piv : nat -> nat) (A : nat -> nat -> K) : Prop :=
  r <= n /\ (forall i, i < r -> piv i < m /\ A i (piv i) <> k0 /\ (forall j, j < piv i -> A i j = k0) /\ forall k, k < n -> k <> i -> A k (piv i) = k0) /\
  (forall i k, i < k -> k < r -> piv i < piv k) /\ forall i j, r <= i -> i < n -> j < m -> A i j = k0.
Lemma cleared_iff a n m A c k : mrep FS a n m A -> c < m ->
  exists b, is_col_cleared T a c k = Ok b /\ (b = true <-> forall q, q < n -> q <> k -> A q c = k0).
Proof.
  intros R Hc. pose proof R as (_ & Rn & _ & _). unfold is_col_cleared. rewrite Rn.
  assert (G : forall rows, (forall q, In q rows -> q < n) -> exists b, col_cleared_from T a c k rows = Ok b /\ (b = true <-> forall q, In q rows -> q <> k -> A q c = k0)).
  { induction rows as [|q rows IH]; intros Hq; [exists true; split; [reflexivity|]; split; [intros _ q []|reflexivity]|]. cbn [col_cleared_from].
    destruct (IH (fun x I => Hq x (or_intror I))) as (b & Eb & Hb). destruct (Nat.eqb_spec q k) as [->|N].
    - exists b. split; [exact Eb|]. rewrite Hb. split; intros H x; [intros [<-|I] Nx; [contradiction|apply H; assumption]|intros I Nx; apply H; [right; exact I|exact Nx]].
    - destruct (mrep_get FS _ _ _ _ q c R (Hq q (or_introl eq_refl)) Hc) as (x & -> & Wx & Dx & _). cbn [bind]. pose proof (eps0 _ _ TS x Wx) as Z.
      destruct (feps T x f0).
      + exists b. split; [exact Eb|]. rewrite Hb. split; intros H y; [intros [<-|I] Ny; [rewrite <- Dx; apply Z; reflexivity|apply H; assumption]|intros I Ny; apply H; [right; exact I|exact Ny]].
      + exists false. split; [reflexivity|]. split; [discriminate|]. intros H. exfalso. assert (Y : false = true) by (apply Z; rewrite Dx; apply H; [left; reflexivity|exact N]). discriminate Y. }
  destruct (G (seq 0 n)) as (b & Eb & Hb); [intros q I; apply in_seq in I; lia|]. exists b. split; [exact Eb|]. rewrite Hb.
  split; intros H q Hq N; apply H; try exact N; [apply in_seq; lia|apply in_seq in Hq; lia].
Qed.
Theorem C121_is_rref : forall a n m, okm FS n m a -> (Z.of_nat m < 2 ^ 31)%Z ->
  exists b, is_rref T a = Ok b /\ (b = true <-> exists r piv, reduced_shape n m r piv (mden FS a)).
Proof.
  intros a n m W Hm. apply okm_mrep in W. set (A := mden FS a) in *. pose proof W as (_ & Rn & Rm & _). unfold is_rref. rewrite Rn.
  assert (G : forall l k prev, k + l = n -> (prev <= Z.of_nat m)%Z -> exists b, is_rref_from T a prev (seq k l) = Ok b /\
    (b = true <-> exists r piv, k <= r /\ r <= n /\
       (forall i, k <= i -> i < r -> (prev < Z.of_nat (piv i))%Z /\ piv i < m /\ A i (piv i) <> k0 /\ (forall j, j < piv i -> A i j = k0) /\ forall q, q < n -> q <> i -> A q (piv i) = k0) /\
       (forall i q, k <= i -> i < q -> q < r -> piv i < piv q) /\ forall i j, r <= i -> i < n -> j < m -> A i j = k0)).
  { induction l as [|l IH]; intros k prev Hk Hp.
    - exists true. split; [reflexivity|]. split; [intros _|reflexivity]. exists k, (fun _ => 0). repeat split; try lia; intros; lia.
    - cbn [seq is_rref_from]. destruct (first_nonzero_ok FS T TS a n m A k W ltac:(lia)) as (o & -> & Ho). cbn [bind]. destruct o as [c|].
      + destruct Ho as (Hc & Nc & Lc). destruct (cleared_iff a n m A c k W Hc) as (bc & -> & Hbc). cbn [bind]. destruct bc; cbn [negb].
        * rewrite as_i32_small by lia. pose proof (proj1 Hbc eq_refl) as CL. destruct (Z.leb_spec (Z.of_nat c) prev) as [L|L].
          -- exists false. split; [reflexivity|]. split; [discriminate|]. intros (r & piv & H1 & H2 & H3 & H4 & H5). exfalso.
             assert (Hr : k < r). { destruct (Nat.lt_ge_cases k r) as [|Q]; [assumption|exfalso]. apply Nc. apply H5; lia. }
             destruct (H3 k (Nat.le_refl _) Hr) as (P1 & P2 & P3 & P4 & _).
             assert (E : piv k = c). { destruct (Nat.lt_trichotomy (piv k) c) as [Q|[Q|Q]]; [exfalso; apply P3; apply Lc; exact Q|exact Q|exfalso; apply Nc; apply P4; exact Q]. }
             lia.
          -- destruct (IH (S k) (Z.of_nat c) ltac:(lia) ltac:(lia)) as (b & Eb & Hb). exists b. split; [exact Eb|]. rewrite Hb. split; intros (r & piv & H1 & H2 & H3 & H4 & H5).
             ++ exists r, (fun i => if i =? k then c else piv i). split; [lia|]. split; [exact H2|]. split; [|split; [|exact H5]].
                ** intros i Hi Hr. destruct (Nat.eqb_spec i k) as [->|N]; [repeat split; auto|]. destruct (H3 i ltac:(lia) Hr) as (P1 & P2). split; [lia|exact P2].
                ** intros i q Hi Hq Hr. destruct (Nat.eqb_spec i k) as [->|N]; (destruct (Nat.eqb_spec q k) as [->|N']; [lia|]); [destruct (H3 q ltac:(lia) Hr) as (P1 & _); lia|apply H4; lia].
             ++ assert (Hr : k < r). { destruct (Nat.lt_ge_cases k r) as [|Q]; [assumption|exfalso]. apply Nc. apply H5; lia. }
                destruct (H3 k (Nat.le_refl _) Hr) as (P1 & P2 & P3 & P4 & _).
                assert (E : piv k = c). { destruct (Nat.lt_trichotomy (piv k) c) as [Q|[Q|Q]]; [exfalso; apply P3; apply Lc; exact Q|exact Q|exfalso; apply Nc; apply P4; exact Q]. }
                exists r, piv. split; [lia|]. split; [exact H2|]. split; [|split; [intros i q Hi; apply H4; lia|exact H5]].
                intros i Hi Hir. destruct (H3 i ltac:(lia) Hir) as (_ & Q2). split; [|exact Q2]. apply inj_lt. rewrite <- E. apply H4; lia.
        * exists false. split; [reflexivity|]. split; [discriminate|]. intros (r & piv & H1 & H2 & H3 & H4 & H5).
          assert (Hr : k < r). { destruct (Nat.lt_ge_cases k r) as [|Q]; [assumption|exfalso]. apply Nc. apply H5; lia. }
          destruct (H3 k (Nat.le_refl _) Hr) as (P1 & P2 & P3 & P4 & P5).
          assert (E : piv k = c). { destruct (Nat.lt_trichotomy (piv k) c) as [Q|[Q|Q]]; [exfalso; apply P3; apply Lc; exact Q|exact Q|exfalso; apply Nc; apply P4; exact Q]. }
          apply Hbc. rewrite <- E. exact P5.
      + rewrite Rm, as_i32_small by lia. destruct (IH (S k) (Z.of_nat m) ltac:(lia) ltac:(lia)) as (b & Eb & Hb). exists b. split; [exact Eb|]. rewrite Hb.
        split; intros (r & piv & H1 & H2 & H3 & H4 & H5).
        * assert (Hr : r = S k). { destruct (Nat.lt_ge_cases (S k) r) as [Q|Q]; [|lia]. destruct (H3 (S k) ltac:(lia) Q) as (P1 & P2 & _). lia. }
          exists k, piv. split; [lia|]. split; [lia|]. split; [intros; lia|]. split; [intros; lia|]. intros i j Hi Hin Hj. destruct (Nat.eq_dec i k) as [->|N]; [apply Ho; exact Hj|apply H5; lia].
        * assert (Hr : r = k). { destruct (Nat.lt_ge_cases k r) as [Q|Q]; [|lia]. exfalso. destruct (H3 k (Nat.le_refl _) Q) as (_ & P2 & P3 & _). apply P3. apply Ho. exact P2. }
          subst r. exists (S k), piv. split; [lia|]. split; [lia|]. split; [intros; lia|]. split; [intros; lia|]. intros i j Hi Hin Hj. apply H5; lia. }
  destruct (G n 0 (-1)%Z eq_refl ltac:(lia)) as (b & Eb & Hb). exists b. split; [exact Eb|]. rewrite Hb. split; intros (r & piv & H).
  - destruct H as (_ & H2 & H3 & H4 & H5). exists r, piv. split; [exact H2|]. split; [intros i Hi; destruct (H3 i ltac:(lia) Hi) as (_ & Q); exact Q|]. split; [intros i k Hi Hk; apply H4; lia|exact H5].
  - destruct H as (H2 & H3 & H4 & H5). exists r, piv. split; [lia|]. split; [exact H2|]. split; [intros i _ Hi; split; [lia|apply H3; exact Hi]|]. split; [intros i q _; apply H4|exact H5].
Qed.
(** with 2^31 columns or more the cast turns large columns negative: a matrix whose first pivot lies in such a column is rejected *)
Lemma as_i32_large n : (2 ^ 31 <= Z.of_nat n < 2 ^ 32)%Z -> (as_i32 n < 0)%Z.
Proof.
  intros H. unfold as_i32. replace (Z.of_nat n + 2 ^ 31)%Z with (Z.of_nat n - 2 ^ 31 + 1 * 2 ^ 32)%Z by lia. rewrite Z_mod_plus_full, Z.mod_small by lia. lia.
Qed.
Theorem C121_is_rref_wide : forall a n m c, okm FS n m a -> 0 < n -> c < m -> (2 ^ 31 <= Z.of_nat c < 2 ^ 32)%Z ->
  mden FS a 0 c <> k0 -> (forall j, j < c -> mden FS a 0 j = k0) -> is_rref T a = Ok false.
Proof.
  intros a n m c W Hn Hm Hc N L. apply okm_mrep in W. pose proof W as (_ & Rn & Rm & _). unfold is_rref. rewrite Rn. destruct n as [|n]; [lia|]. cbn [seq is_rref_from].
  destruct (first_nonzero_ok FS T TS a (S n) m _ 0 W Hn) as (o & -> & Ho). cbn [bind]. destruct o as [c'|]; [|exfalso; apply N; apply Ho; exact Hm].
  destruct Ho as (Hc' & N' & L'). assert (E : c' = c). { destruct (Nat.lt_trichotomy c' c) as [Q|[Q|Q]]; [exfalso; apply N'; apply L; exact Q|exact Q|exfalso; apply N; apply L'; exact Q]. }
  subst c'. destruct (cleared_iff a (S n) m _ c 0 W Hc') as (b & -> & _). cbn [bind]. destruct b; cbn [negb]; [|reflexivity].
  pose proof (as_i32_large c Hc). destruct (Z.leb_spec (as_i32 c) (-1)); [reflexivity|lia].
Qed.
(** a row of zeros that ends with 1 in such a column is reduced *)
Theorem C121_is_rref_columns_refuted : exists n m a, okm FS n m a /\ (exists r piv, rref n m r piv (mden FS a)) /\ is_rref T a = Ok false.
Proof.
  assert (X : exists c, Z.of_nat c = (2 ^ 31)%Z) by (exists (Z.to_nat (2 ^ 31)); apply Z2Nat.id; lia). destruct X as (c & Hc).
  set (a := @mkmat F (repeat f0 c ++ [f1]) 1 (S c)).
  assert (Z0 : forall j, j < c -> mden FS a 0 j = k0).
  { intros j Hj. unfold mden, mentry, a. cbn [mcols ments Nat.mul Nat.add]. rewrite app_nth1 by (rewrite repeat_length; exact Hj). rewrite nth_repeat. apply (den0 _ _ FS). }
  assert (Z1 : mden FS a 0 c = k1).
  { unfold mden, mentry, a. cbn [mcols ments Nat.mul Nat.add]. rewrite app_nth2 by (rewrite repeat_length; apply Nat.le_refl). rewrite repeat_length, Nat.sub_diag. apply (den1 _ _ FS). }
  assert (W : okm FS 1 (S c) a).
  { split; [|split; reflexivity]. split.
    - unfold mshape, a. cbn [ments mrows mcols]. rewrite app_length, repeat_length. cbn [length]. lia.
    - unfold a. cbn [ments]. apply Forall_app. split; [apply Forall_forall; intros x I; apply repeat_spec in I; subst x; apply (wf0 _ _ FS)|constructor; [apply (wf1 _ _ FS)|constructor]]. }
  exists 1, (S c), a. split; [exact W|]. split.
  - exists 1, (fun _ => c). split; [|intros i k Hi Hk; lia]. constructor; intros; try lia; assert (i = 0) by lia; subst i; [exact Z1|apply Z0; assumption].
  - apply (C121_is_rref_wide a 1 (S c) c W); [lia|lia|lia|rewrite Z1; intros H; exact (F_1_neq_0 (kth K) H)|exact Z0].
Qed.
End IsRref.
(** ** how the tests run: all assertions, all elements of all loops; as_i32 wraps around at 2^31 *)
Theorem C121_all : forall l, all l = Ok tt <-> Forall (fun x => x = Ok tt) l.
Proof.
  induction l as [|x l IH]; cbn [all]; [split; [constructor|reflexivity]|]. split.
  - intros H. destruct x as [[]| |]; try discriminate H. constructor; [reflexivity|apply IH; exact H].
  - intros H. inversion H as [|? ? E H' Q]. subst. cbn [bind]. apply IH. exact H'.
Qed.
Theorem C121_for_each : forall {A} (body : A -> res unit) l, for_each body l = Ok tt <-> forall x, In x l -> body x = Ok tt.
Proof.
  intros A body l. unfold for_each. induction l as [|x l IH]; cbn [foldM]; [split; [intros _ x []|reflexivity]|]. split.
  - intros H. destruct (body x) as [[]| |] eqn:E; try discriminate H. intros y [<-|I]; [exact E|]. apply IH; assumption.
  - intros H. rewrite (H x (or_introl eq_refl)). cbn [bind]. apply IH. intros y I. apply H. right. exact I.
Qed.
(** multi_cartesian_product: all choices, in the order in which the last list varies fastest *)
Theorem C121_multi_product : forall {A} (l : list (list A)) v, In v (multi_product l) <-> Forall2 (@In A) v l.
Proof.
  intros A. induction l as [|x l IH]; intros v; cbn [multi_product].
  - split; [intros [<-|[]]; constructor|intros H; inversion H; left; reflexivity].
  - rewrite in_flat_map. split.
    + intros (a & Ia & Iv). apply in_map_iff in Iv as (w & <- & Iw). constructor; [exact Ia|apply IH; exact Iw].
    + intros H. inversion H as [|a y w l' Ia Hw E1 E2]. subst. exists a. split; [exact Ia|]. apply in_map. apply IH. exact Hw.
Qed.
Theorem C121_multi_product_order : forall {A} (x : list A) l i j a w, nth_error x i = Some a -> nth_error (multi_product l) j = Some w ->
  nth_error (multi_product (x :: l)) (i * length (multi_product l) + j) = Some (a :: w).
Proof.
  intros A x l i j a w. cbn [multi_product]. revert i. induction x as [|b x IH]; intros i Hi Hj; [destruct i; discriminate Hi|]. cbn [flat_map]. destruct i as [|i].
  - injection Hi as ->. cbn [Nat.mul Nat.add]. rewrite nth_error_app1 by (rewrite map_length; apply nth_error_Some; rewrite Hj; discriminate). apply (map_nth_error (cons a)). exact Hj.
  - rewrite nth_error_app2 by (rewrite map_length; nia). rewrite map_length. replace (S i * length (multi_product l) + j - length (multi_product l)) with (i * length (multi_product l) + j) by nia.
    apply IH; assumption.
Qed.
Theorem C121_rref : forall a n m, okr n m a -> (Z.of_nat m < 2 ^ 31)%Z -> passes (rref_check RT a).
Proof.
  intros a n m W Hm. unfold passes, rref_check.
  eapply safe_bind_eq; [exact (C51_row_echelon rat_spec RT rat_stab_spec a n m W)|]. intros s0 E0 (RE & r & piv & E).
  eapply safe_bind_eq; [exact (C52_to_rref rat_spec RT rat_stab_spec a n m s0 r piv RE E)|]. intros s E1 ((Wp & Wb & _ & M) & R).
  apply okm_mrep in Wp, Wb, W. eapply safe_bind; [apply (mat_mul_ok rat_spec _ _ _ _ _ _ _ Wp W)|]. intros x Rx.
  eapply safe_bind; [eapply eps_true; [exact Rx|exact Wb|exact M]|]. intros b ->. cbn [bind assert].
  rewrite (is_rref_ok rat_spec RT rat_stab_spec _ _ _ _ _ _ Wb R Hm). exact I.
Qed.
(** test_compute_kernel passes for matrices with more columns than rank ... *)
Theorem C121_kernel : forall a n m, okr n m a -> (forall s r, mat_row_echelon RT a = Ok s -> form_rank RT s = Ok r -> r < m) -> passes (kernel_check RT a).
Proof.
  intros a n m W Hr. unfold passes, kernel_check.
  eapply safe_bind_eq; [exact (C51_row_echelon rat_spec RT rat_stab_spec a n m W)|]. intros s0 E0 (RE & r & piv & E).
  destruct (C53_nullity rat_spec RT rat_stab_spec a n m s0 W (or_introl E0)) as (r0 & ER & EN & D0). rewrite EN. cbn [bind].
  pose proof (Hr s0 r0 E0 ER) as Lr.
  eapply safe_bind_eq; [exact (C52_to_rref rat_spec RT rat_stab_spec a n m s0 r piv RE E)|]. intros s E1 _.
  assert (RO : rref_of RT a s) by (exists s0; split; assumption).
  eapply safe_bind; [exact (C54_kernel rat_spec RT rat_stab_spec a n m s W RO)|]. intros vs (OV & B & _).
  assert (LV : length vs = m - r0).
  { pose proof (proj2 D0 _ B) as X. rewrite map_length in X. exact X. }
  assert (RV : Forall (fun v => exists A, mrep rat_spec v m 1 A) vs).
  { eapply Forall_impl; [|exact OV]. intros v Wv. exists (rval v). apply okm_mrep. exact Wv. }
  pose proof W as W'. apply okm_mrep in W'.
  eapply (safe_bind _ _ (fun _ => True)).
  { unfold for_each. apply (foldM_safe _ (fun _ _ => True)); [exact I|]. intros pre v post u EV _.
    assert (Iv : In v vs) by (rewrite EV; apply in_or_app; right; left; reflexivity).
    rewrite Forall_forall in OV. specialize (OV v Iv). apply okm_mrep in OV as Rv.
    eapply safe_bind; [apply (mat_mul_ok rat_spec _ _ _ _ _ _ _ W' Rv)|]. intros x Rx. pose proof Rx as (_ & Nx & Mx & _). rewrite Nx, Mx.
    apply passes_assert. eapply eps_true; [exact Rx|apply zero_ok|]. intros i j Hi Hj. assert (j = 0) by lia. subst j.
    destruct B as (_ & KV & _). rewrite Forall_forall in KV. exact (KV (vec_of rat_spec v) (in_map _ _ _ Iv) i Hi). }
  intros _ _. assert (NE : vs <> []) by (intros ->; cbn in LV; lia).
  destruct (from_row_vectors_ok rat_spec vs m NE RV) as (k & -> & Rk). cbn [bind].
  apply mrep_okm in Rk as [Wk Vk].
  eapply safe_bind_eq; [exact (C51_row_echelon rat_spec RT rat_stab_spec k _ _ Wk)|]. intros s1 E2 _.
  destruct (C53_rank rat_spec RT rat_stab_spec k _ _ s1 Wk (or_introl E2)) as (r1 & -> & _ & _ & _ & D1). cbn [bind].
  assert (ER1 : r1 = m - r0); [|rewrite ER1, Nat.eqb_refl; exact I].
  rewrite <- LV. symmetry. apply (dimension_unique m (in_rowspace (length vs) m (rval k))); [|exact D1].
  apply (basis_dimension m _ (map (vec_of rat_spec) vs)); [|apply map_length].
  rewrite <- (map_length (vec_of rat_spec) vs). apply rows_basis; [|exact (proj1 B)].
  intros q i Hq Hi. rewrite map_length in Hq. rewrite (nth_indep _ vzero (vec_of rat_spec (mkmat [] 0 0))) by (rewrite map_length; exact Hq). rewrite map_nth.
  exact (Vk q i Hq Hi).
Qed.
(** ... in particular with more columns than rows, as in the test ... *)
Theorem C121_kernel_wide : forall a n m, okr n m a -> n < m -> passes (kernel_check RT a).
Proof.
  intros a n m W L. apply (C121_kernel a n m W). intros s r Es Er.
  destruct (C53_rank rat_spec RT rat_stab_spec a n m s W (or_introl Es)) as (r' & Er' & Hn & _). assert (r' = r) by congruence. lia.
Qed.
(** ... and never otherwise: from_row_vectors panics for the empty basis *)
Theorem C121_kernel_full_rank : forall a n m s, okr n m a -> mat_row_echelon RT a = Ok s -> form_rank RT s = Ok m ->
  kernel_check RT a = Panic IndexOOB \/ kernel_check RT a = Panic Overflow.
Proof.
  intros a n m s0 W E0 ER. unfold kernel_check. rewrite E0. cbn [bind].
  destruct (C53_nullity rat_spec RT rat_stab_spec a n m s0 W (or_introl E0)) as (r0 & ER' & EN & D0). rewrite EN. cbn [bind].
  assert (r0 = m) by congruence. subst r0. rewrite Nat.sub_diag in D0.
  pose proof (safe_val _ _ _ (C51_row_echelon rat_spec RT rat_stab_spec a n m W) E0) as (RE & r & piv & E).
  pose proof (C52_to_rref rat_spec RT rat_stab_spec a n m s0 r piv RE E) as H1. apply safe_inv in H1 as [->|(s & E1 & _)]; [right; reflexivity|].
  rewrite E1. cbn [bind]. assert (RO : rref_of RT a s) by (exists s0; split; assumption).
  pose proof (C54_kernel rat_spec RT rat_stab_spec a n m s W RO) as H2. apply safe_inv in H2 as [->|(vs & -> & _ & B & _)]; [right; reflexivity|].
  pose proof (proj2 D0 _ B) as X. rewrite map_length in X. destruct vs; [|discriminate X]. left. reflexivity.
Qed.

(** ** poly/comp.rs: the division test, for every field type whose == compares values *)
Section Division.
Context {F : FieldImpl} {K : MathField} (FS : FieldSpec F K) {O : ord_impl} (OS : OrderSpec O).
Add Field Kf52 : (kth K).
Add Ring Pr52 : (@poly_ring K) (setoid (@peq_equiv K) (@poly_ring_ext K)).
Notation poly := (poly F).
Notation term := (term F).
Notation val := (ip FS).
Notation clean := (pwf FS).
Notation le := (mle (olt OS)).
Notation mon t := (canon (tdeg t)).
Definition exact_eq : Prop := forall x y : F, fwf FS x -> fwf FS y -> den FS x = den FS y -> feqb x y = true.
Lemma clean_tail (t : term) (l : poly) : clean (t :: l) -> clean l.
Proof. intros [W N]. inversion W; inversion N; subst. split; assumption. Qed.
Lemma sorted_equal (EQ : exact_eq) : forall l l' : poly, clean l -> clean l' -> peq (val l) (val l') ->
  StronglySorted (fun s t : term => le (mon s) (mon t)) l -> StronglySorted (fun s t : term => le (mon s) (mon t)) l' -> terms_eqb l l' = true.
Proof.
  induction l as [|t l IH]; intros l' W W' E0 S S'; pose proof (proj1 (peq_coeff _ _) E0) as E.
  - assert (l' = []) as ->; [|reflexivity]. apply (pwf_zero_iff FS l' W'). symmetry. exact E0.
  - destruct l' as [|t' l']; [exfalso; assert (X : t :: l = []) by (apply (pwf_zero_iff FS _ W); exact E0); discriminate X|].
    assert (M : mon t = mon t').
    { apply (mle_antisym _ (olaws _ OS)).
      - assert (N : coeff (val (t :: l)) (mon t') <> k0).
        { rewrite (E (mon t')), (pwf_coeff FS _ t' W' (or_introl eq_refl)). apply (pwf_in FS _ t' W'). left. reflexivity. }
        apply (pwf_support FS _ _ W) in N as (u & Iu & <-). destruct Iu as [<-|Iu]; [left; reflexivity|].
        inversion S as [|? ? _ Fl]; subst. rewrite Forall_forall in Fl. apply Fl. exact Iu.
      - assert (N : coeff (val (t' :: l')) (mon t) <> k0).
        { rewrite <- (E (mon t)), (pwf_coeff FS _ t W (or_introl eq_refl)). apply (pwf_in FS _ t W). left. reflexivity. }
        apply (pwf_support FS _ _ W') in N as (u & Iu & <-). destruct Iu as [<-|Iu]; [left; reflexivity|].
        inversion S' as [|? ? _ Fl]; subst. rewrite Forall_forall in Fl. apply Fl. exact Iu. }
    pose proof (pwf_in FS _ t W (or_introl eq_refl)) as (Ft & _ & Dt). pose proof (pwf_in FS _ t' W' (or_introl eq_refl)) as (Ft' & _ & Dt').
    assert (D : tdeg t = tdeg t') by (apply canon_inj; [apply Dt|apply Dt'|exact M]).
    assert (C : den FS (coef t) = den FS (coef t')).
    { rewrite <- (pwf_coeff FS _ t W (or_introl eq_refl)), <- (pwf_coeff FS _ t' W' (or_introl eq_refl)), M. apply E. }
    cbn [terms_eqb]. unfold term_eqb. rewrite (EQ _ _ Ft Ft' C). rewrite (proj2 (mdeg_eqb_eq _ _) D). cbn [andb].
    apply IH; [eapply clean_tail; exact W|eapply clean_tail; exact W'| |inversion S; assumption|inversion S'; assumption].
    apply peq_coeff. intros m. specialize (E m). rewrite !ip_cons, !coeff_add in E.
    assert (X : coeff (it FS t) m = coeff (it FS t') m) by (unfold it; rewrite C, M; reflexivity).
    rewrite X in E. apply (f_equal (fun z => kadd (kopp (coeff (it FS t') m)) z)) in E.
    transitivity (kadd (kopp (coeff (it FS t') m)) (kadd (coeff (it FS t') m) (coeff (val l) m))); [ring|]. rewrite E. ring.
Qed.
Theorem C121_division : forall (f : poly) gs, exact_eq -> clean f -> Forall clean gs -> evs (fun fuel => division_check Debug O fuel f gs) (fun _ => True).
Proof.
  intros f gs EQ W Wg. unfold division_check.
  apply (evs_bind (fun fuel => divide Debug O fuel f gs)
           (fun rq _ => let '(r, q) := rq in f2 <- foldM (fun acc p => x <- poly_mul Debug (fst p) (snd p) ;; poly_add acc x) (combine q gs) r ;;
              _ <- assert (length q =? length gs) ;; poly_assert_eq O f f2)
           (fun rq => length (snd rq) = length gs /\ clean (fst rq) /\ Forall clean (snd rq) /\ peq (val f) (padd (lincomb (map val (snd rq)) (map val gs)) (val (fst rq))))).
  { destruct (C35_division_terminates FS OS f gs W Wg) as (N & [H|(r & qs & H)]).
    - exists N, (Panic Overflow). split; [exact H|exact I].
    - exists N, (Ok (r, qs)). split; [exact H|]. exact (C32_division_identity FS OS N f gs r qs W Wg (H N (Nat.le_refl _))). }
  intros [r q] (L & Wr & Wq & E). cbn [fst snd] in *. apply evs_const.
  assert (G : forall q gs acc, clean acc -> Forall clean q -> Forall clean gs ->
    safe (foldM (fun acc p => x <- poly_mul Debug (fst p) (snd p) ;; poly_add acc x) (combine q gs) acc)
         (fun f2 : poly => clean f2 /\ peq (val f2) (padd (lincomb (map val q) (map val gs)) (val acc)))).
  { clear. induction q as [|a q IH]; intros gs acc Wa Wq Wg; [cbn; split; [exact Wa|ring]|].
    destruct gs as [|g gs]; [cbn; split; [exact Wa|ring]|]. inversion Wq as [|? ? Wa1 Wq1]; subst. inversion Wg as [|? ? Wg1 Wg2]; subst.
    cbn [combine foldM fst snd map lincomb].
    eapply safe_bind; [eapply safe_bind; [apply (poly_mul_ok FS a g); [apply (Forall_twf0 FS); apply Wa1|exact Wg1]|]|].
    - intros x (Wx & Vx). eapply safe_mono; [apply (poly_add_ok FS acc x Wa); apply (Forall_twf0 FS); apply Wx|].
      intros y (Wy & Vy). assert (Z : clean y /\ peq (val y) (padd (val acc) (pmul (val a) (val g)))); [|exact Z].
      split; [exact Wy|]. rewrite Vy, Vx. reflexivity.
    - intros y (Wy & Vy). eapply safe_mono; [apply IH; assumption|]. intros f2 (W2 & V2). split; [exact W2|]. rewrite V2, Vy. ring. }
  eapply safe_bind; [apply (G q gs r Wr Wq Wg)|]. intros f2 (W2 & V2). rewrite L, Nat.eqb_refl. cbn [assert bind].
  assert (V : peq (val f) (val f2)) by (rewrite E, V2; reflexivity). clear - OS EQ W W2 V.
  unfold poly_assert_eq. eapply safe_bind_eq; [apply (sort_ok FS OS f); apply (Forall_twf0 FS); apply W|]. intros s1 E1 _.
  eapply safe_bind_eq; [apply (sort_ok FS OS f2); apply (Forall_twf0 FS); apply W2|]. intros s2 E2 _.
  destruct (C30_sort_terms FS OS f s1 (Forall_twf0 FS f (proj1 W)) E1) as (P1 & S1 & _ & V1).
  destruct (C30_sort_terms FS OS f2 s2 (Forall_twf0 FS f2 (proj1 W2)) E2) as (P2 & S2 & _ & V2).
  rewrite sorted_equal; [exact I|exact EQ|eapply pwf_perm; eassumption|eapply pwf_perm; eassumption| |exact S1|exact S2].
  rewrite V1, V2. exact V.
Qed.
End Division.
(** the == of Rational compares representations, and the test would fail: x^2 + x divided by x^2 + x/2 *)
Theorem C121_division_rational_refuted : exists f g : poly (rat_impl Debug), pwf rat_spec f /\ pwf rat_spec g /\ division_check Debug lex_cmp 10 f [g] = Panic Explicit.
Proof.
  exists [@mkterm (rat_impl Debug) rat_one [2]; @mkterm (rat_impl Debug) rat_one [1]],
         [@mkterm (rat_impl Debug) rat_one [2]; @mkterm (rat_impl Debug) (mkrat 1 2) [1]].
  split; [apply ex_clean; reflexivity|]. split; [apply ex_clean; reflexivity|]. reflexivity.
Qed.

(** ** the test is run over f64: every division in which nothing is rounded passes *)
Section Float.
Context (t : FloatModel.fmt) (e : fenv) (T : is_fmt t).
Notation X := (exact_float t e any).
Notation F := (float_impl t e).
Lemma exact_float_eq : exact_eq (XS t e T).
Proof.
  intros x y (Vx & Fx & _) (Vy & Fy & _) E. cbn [den XS exact_float_spec] in E. cbn [feqb exact_float]. unfold SFeqb.
  rewrite (compare_exact t (is_good t T) x y (fval x) (fval y)) by (repeat split; assumption). rewrite E. unfold Qccompare.
  rewrite (proj1 (Qeq_alt _ _) (Qeq_refl _)). reflexivity.
Qed.
Let S : FieldSim X F (xrel t e any) := exact_float_sim t e any (is_good t T) eq_refl eq_refl eq_refl.
Notation prel := (Forall2 (trel (R := xrel t e any))).
Lemma terms_eqb_sim (p q : poly X) (p' q' : poly F) : prel p p' -> prel q q' -> terms_eqb p q = terms_eqb p' q'.
Proof.
  intros P. revert q q'. induction P as [|a a' p p' [[A _] B] P IH]; intros q q' Q; destruct Q as [|b b' q q' [[C _] D] Q]; try reflexivity.
  cbn [terms_eqb]. rewrite (IH _ _ Q). unfold term_eqb. rewrite A, B, C, D. reflexivity.
Qed.
Lemma division_check_sim (O : ord_impl) fuel (f : poly X) f' gs gs' : prel f f' -> Forall2 prel gs gs' ->
  rsim eq (division_check (F := X) Debug O fuel f gs) (division_check (F := F) Debug O fuel f' gs').
Proof.
  intros Hf Hg. assert (M : mode_le Debug Debug) by (left; reflexivity). assert (OO : ord_sim O O) by (intros a b; apply rsim_refl).
  unfold division_check. apply (rsim_bind (drel (R := xrel t e any)) eq); [apply (divide_rsim S _ _ M _ _ OO); eassumption|]. intros [r q] [r' q'] _ HH. destruct HH as [Hr Hq]. cbn [fst snd] in Hr, Hq.
  eapply (rsim_bind prel).
  - apply (foldM_rsim (prel2 prel prel) prel).
    + intros a a' [p g] [p' g'] Ha [Hp Hg']. cbn [fst snd] in *. eapply rsim_bind; [apply (poly_mul_rsim S _ _ M); eassumption|].
      intros x x' _ Hx. apply (poly_add_rsim S); assumption.
    + apply combine_rel; assumption.
    + exact Hr.
  - intros f2 f2' _ H2. assert (Lq : @length (poly X) q = @length (poly F) q') by (eapply Forall2_length; exact Hq).
    assert (Lg : @length (poly X) gs = @length (poly F) gs') by (eapply Forall2_length; exact Hg). rewrite Lq, Lg. eapply rsim_bind; [apply rsim_refl|]. intros _ _ _ _.
    unfold poly_assert_eq. eapply rsim_bind; [apply (sort_terms_rsim (R := xrel t e any) _ _ OO); exact Hf|]. intros s1 s1' _ H1.
    eapply rsim_bind; [apply (sort_terms_rsim (R := xrel t e any) _ _ OO); exact H2|]. intros s2 s2' _ H3. rewrite (terms_eqb_sim _ _ _ _ H1 H3). apply rsim_refl.
Qed.
Theorem C121_division_float : forall {O : ord_impl} (OS : OrderSpec O) (f : poly X) gs, pwf (XS t e T) f -> Forall (pwf (XS t e T)) gs -> exists n,
  (forall fuel, n <= fuel -> division_check (F := X) Debug O fuel f gs = Panic Overflow) \/
  (forall fuel, n <= fuel -> division_check (F := F) Debug O fuel (pmap (fx t e) f) (map (pmap (fx t e)) gs) = Ok tt).
Proof.
  intros O OS f gs W Wg. destruct (C121_division (XS t e T) OS f gs exact_float_eq W Wg) as (n & r & H & Sf). exists n.
  destruct r as [[]|[]|]; cbn in Sf; try contradiction; [right|left; exact H]. intros fuel L. specialize (H fuel L).
  assert (P : forall p, pwf (XS t e T) p -> prel p (pmap (fx t e) p)).
  { intros p Wp. assert (A : Forall (fun u => fwf (XS t e T) (coef u)) p) by (apply Forall_forall; intros u I; apply (pwf_in _ _ u Wp I)).
    clear - A. induction A as [|u p A _ IH]; cbn; constructor; [split; [split; [reflexivity|exact A]|reflexivity]|exact IH]. }
  pose proof (division_check_sim O fuel f _ gs (map (pmap (fx t e)) gs) (P f W)) as Z. rewrite H in Z.
  assert (Q : Forall2 prel gs (map (pmap (fx t e)) gs)) by (clear - P Wg; induction Wg as [|g gs Wp _ IH]; cbn; constructor; auto).
  specialize (Z Q). destruct (division_check (F := F) _ _ _ _ _); cbn in Z; try contradiction. subst. reflexivity.
Qed.
End Float.

(** ** Concrete cases *)
Example C121_ex_lu : lu_check RT ex_a = Ok tt. Proof. reflexivity. Qed.
Example C121_ex_row_echelon : row_echelon_check RT ex_a = Ok tt. Proof. reflexivity. Qed.
(** a matrix with a pivot 2 is not reduced, but is_rref accepts it; one with a column not cleared is rejected *)
Theorem C121_is_rref_pivots_refuted : exists a : mat (rat_impl Debug), okr 2 3 a /\ is_rref RT a = Ok true /\ ~ exists r piv, rref 2 3 r piv (rval a).
Proof.
  exists (ex_mat 2 3 [(2,1);(0,1);(1,1);(0,1);(1,1);(1,1)]%Z). split; [split; [apply ex_mat_ok; reflexivity|split; reflexivity]|]. split; [reflexivity|].
  intros (r & piv & E & _).
  assert (V : rval (ex_mat 2 3 [(2,1);(0,1);(1,1);(0,1);(1,1);(1,1)]%Z) 0 0 = den rat_spec (mkrat 2 1 : rat_impl Debug)) by reflexivity.
  assert (N : rval (ex_mat 2 3 [(2,1);(0,1);(1,1);(0,1);(1,1);(1,1)]%Z) 0 0 <> k0) by (rewrite V; discriminate).
  destruct r as [|r]; [apply N; apply (ech_zero _ _ _ _ _ E); lia|].
  destruct (piv 0) as [|c] eqn:P.
  - pose proof (ech_one _ _ _ _ _ E 0 ltac:(lia)) as O. rewrite P, V in O. discriminate O.
  - apply N. apply (ech_left _ _ _ _ _ E); lia.
Qed.
Example C121_ex_is_rref : is_rref RT (ex_mat 2 3 [(1,1);(2,1);(0,1);(0,1);(1,1);(1,1)]%Z) = Ok false /\ is_rref RT (ex_mat 2 3 [(0,1);(0,1);(0,1);(0,1);(1,1);(1,1)]%Z) = Ok false /\
  is_rref RT (ex_mat 2 3 [(0,1);(1,1);(1,1);(0,1);(0,1);(0,1)]%Z) = Ok true.
Proof. repeat split; reflexivity. Qed.
Example C121_ex_rref : rref_check RT ex_a = Ok tt. Proof. reflexivity. Qed.
Example C121_ex_kernel_wide : kernel_check RT ex_a = Ok tt. Proof. reflexivity. Qed.
(** a square matrix of rank 1, and an invertible one *)
Definition ex_sing := ex_mat 2 2 [(1,1);(2,1);(1,2);(1,1)]%Z.
Example C121_ex_sing : okm rat_spec 2 2 ex_sing /\ (forall s r, mat_row_echelon RT ex_sing = Ok s -> form_rank RT s = Ok r -> r < 2).
Proof.
  split; [split; [apply ex_mat_ok; reflexivity|split; reflexivity]|]. intros s r Es Er.
  assert (X : bind (mat_row_echelon RT ex_sing) (fun s => form_rank RT s) = Ok 1) by reflexivity. rewrite Es in X. cbn [bind] in X.
  assert (r = 1) by congruence. lia.
Qed.
Example C121_ex_kernel : kernel_check RT ex_sing = Ok tt. Proof. reflexivity. Qed.
Example C121_ex_kernel_full_rank : (s <- mat_row_echelon RT ex_b ;; form_rank RT s) = Ok 2 /\ kernel_check RT ex_b = Panic IndexOOB.
Proof. split; reflexivity. Qed.
(** == compares values for the mathematical fields (and for floats, [exact_float_eq]) *)
Example C121_ex_exact (K : MathField) : exact_eq (ideal_spec K).
Proof. intros x y _ _ E. cbn in E. rewrite E. apply keqb_iff. reflexivity. Qed.
(** x^2 y + x y^2 + y^2 divided by (x y - 1, y^2 - 1) over f64 *)
Definition ex_f : poly ex64 := [ex_xt 1 [2; 1]; ex_xt 1 [1; 2]; ex_xt 1 [0; 2]].
Definition ex_gs : list (poly ex64) := [[ex_xt 1 [1; 1]; ex_xt (-1) []]; [ex_xt 1 [0; 2]; ex_xt (-1) []]].
Example C121_ex_division : division_check (F := ex64) Debug lex_cmp 10 ex_f ex_gs = Ok tt /\
  division_check (F := float_impl binary64 env0) Debug lex_cmp 10 (pmap (fx binary64 env0) ex_f) (map (pmap (fx binary64 env0)) ex_gs) = Ok tt.
Proof. split; vm_compute; reflexivity. Qed.
Example C121_ex_clean (T : is_fmt binary64) : Forall (pwf (XS binary64 env0 T)) (ex_f :: ex_gs).
Proof.
  assert (Tw : forall z d, (if SFeqb (f64of z) fzero then false else true) && (valid_binary 53 1024 (f64of z) && finite (f64of z)) = true ->
    canonicalb d && forallb (fun x => x <=? 255) d = true -> twf (XS binary64 env0 T) (ex_xt z d)).
  { intros z d H D. apply andb_true_iff in H as [H1 H2]. apply andb_true_iff in H2 as [H2 H3].
    assert (W : fwf (XS binary64 env0 T) (f64of z)) by (split; [exact H2|split; [exact H3|reflexivity]]).
    split; [exact W|]. split; [|apply mwf_b; exact D]. intros Z. apply (eqb0 _ _ (XS binary64 env0 T) _ W) in Z. cbn [feqb ex64 exact_float f0] in Z. rewrite Z in H1. discriminate. }
  repeat (apply Forall_cons; [split; [repeat (apply Forall_cons; [apply Tw; vm_compute; reflexivity|]); apply Forall_nil|
    cbn [map tdeg ex_xt]; repeat (apply NoDup_cons; [cbn; intuition discriminate|]); apply NoDup_nil]|]). apply Forall_nil.
Qed.

Example C121_ex_loops : all [Ok tt; assert false; Ok tt] = Panic Explicit /\ for_each (fun n => assert (n <? 3)) [0; 1; 2] = Ok tt /\ for_each (fun n => assert (n <? 3)) [0; 3; 2] = Panic Explicit /\
  multi_product [[1; 2]; [3; 4; 5]] = [[1; 3]; [1; 4]; [1; 5]; [2; 3]; [2; 4]; [2; 5]].
Proof. repeat split; reflexivity. Qed.

From Verif Require Import CleanShape.
(** ** polys: all polynomials in so many variables with bounded total degree and coefficients 0, .., max_coef, each of
    them without zero terms and without a repeated degree *)
Section Polys.
Context (e : fenv).
Notation F := (float_impl binary64 e).
Lemma nodup_multi {A} (l : list (list A)) : Forall (@NoDup A) l -> NoDup (multi_product l).
Proof.
  induction 1 as [|x l Nx _ IH]; cbn [multi_product]; [constructor; [intros []|constructor]|].
  induction x as [|a x IHx]; cbn [flat_map]; [constructor|]. inversion Nx as [|? ? N1 N2]; subst.
  assert (N0 : NoDup (map (cons a) (multi_product l))) by (apply FinFun.Injective_map_NoDup; [intros u v H; injection H as ->; reflexivity|exact IH]).
  specialize (IHx N2). assert (D : forall v, In v (map (cons a) (multi_product l)) -> ~ In v (flat_map (fun a => map (cons a) (multi_product l)) x)).
  { intros v Iv I. apply in_map_iff in Iv as (w & <- & _). apply in_flat_map in I as (b & Ib & I). apply in_map_iff in I as (w' & E & _). injection E as -> _. contradiction. }
  clear - N0 IHx D. induction (map (cons a) (multi_product l)) as [|v s IH]; [exact IHx|]. cbn [app]. inversion N0 as [|? ? H1 H2]; subst. constructor.
  - intros I. apply in_app_or in I as [I|I]; [contradiction|]. exact (D v (or_introl eq_refl) I).
  - apply IH; [exact H2|]. intros w Iw. apply D. right. exact Iw.
Qed.
Lemma choice_repeat {A} (x : list A) n v : Forall2 (@In A) v (repeat x n) <-> length v = n /\ forall a, In a v -> In a x.
Proof.
  revert v. induction n as [|n IH]; intros v; cbn [repeat].
  - split; [intros H; inversion H; subst; split; [reflexivity|intros a []]|]. intros [L _]. destruct v; [constructor|discriminate].
  - split.
    + intros H. inversion H as [|a ? w ? Ia Hw]; subst. apply IH in Hw as [L I]. cbn [length]. split; [congruence|]. intros b [<-|Ib]; auto.
    + intros [L I]. destruct v as [|a v]; [discriminate|]. injection L as L. constructor; [apply I; left; reflexivity|]. apply IH. split; [exact L|]. intros b Ib. apply I. right. exact Ib.
Qed.
Lemma ltrim_inj u v : length u = length v -> ltrim u = ltrim v -> u = v.
Proof.
  intros L H. apply (nth_ext u v 0 0 L). intros i _. pose proof (ltrim_expo u i) as A. pose proof (ltrim_expo v i) as B. unfold expo in A, B. rewrite H in A. congruence.
Qed.
Lemma pad_ltrim d n : length d <= n -> canonical d -> ltrim (d ++ repeat 0 (n - length d)) = d.
Proof.
  intros L C. transitivity (ltrim d); [|apply ltrim_id; exact C].
  pose proof (ltrim_canonical (d ++ repeat 0 (n - length d))) as C1. pose proof (ltrim_canonical d) as C2.
  apply (canonical_ext _ _ C1 C2). intros i. rewrite !ltrim_expo. unfold expo. destruct (Nat.lt_ge_cases i (length d)) as [Hi|Hi].
  - apply app_nth1. exact Hi.
  - rewrite app_nth2 by exact Hi. rewrite (nth_overflow d) by exact Hi. apply nth_repeat.
Qed.
Lemma mapM_pairs (l : list (list nat)) ds : mapM (fun d => t <- mdeg_total_deg Debug d ;; Ok (d, t)) l = Ok ds ->
  ds = map (fun d => (d, list_sum d)) l /\ Forall (fun d => list_sum d <= 255) l.
Proof.
  revert ds. induction l as [|d l IH]; intros ds E; cbn [mapM] in E; [injection E as <-; split; [reflexivity|constructor]|].
  apply bind_Ok in E as (x & Ex & E). apply bind_Ok in E as (r & Er & E). injection E as <-. rewrite total_deg_debug in Ex.
  destruct (Nat.leb_spec (list_sum d) 255) as [L|L]; [|discriminate Ex]. injection Ex as <-. destruct (IH r Er) as [-> H]. split; [reflexivity|constructor; assumption].
Qed.
Lemma filter_fst (l : list (list nat)) k : map fst (filter (fun p : list nat * nat => snd p <=? k) (map (fun d => (d, list_sum d)) l)) = filter (fun d => list_sum d <=? k) l.
Proof. induction l as [|d l IH]; [reflexivity|]. cbn [map filter snd]. destruct (list_sum d <=? k); cbn [map fst]; rewrite IH; reflexivity. Qed.
Lemma list_sum_In (d : list nat) x : In x d -> x <= list_sum d.
Proof. induction d as [|y d IH]; [intros []|]. change (list_sum (y :: d)) with (y + list_sum d). intros [<-|I]; [lia|specialize (IH I); lia]. Qed.

Theorem C121_polys : forall vars max_deg max_coef ps, polys e vars max_deg max_coef = Ok ps ->
  (forall p, In p ps -> distinct p /\ nonzero p /\
     forall s, In s p -> MDegProofs.mwf (tdeg s) /\ length (tdeg s) <= vars /\ list_sum (tdeg s) <= max_deg /\
       exists k, 1 <= k <= max_coef /\ coef s = flit e (Z.of_nat k)) /\
  (forall k : list nat -> nat, (forall d, k d <= max_coef) -> exists p, In p ps /\
     forall d, canonical d -> length d <= vars -> list_sum d <= max_deg ->
       coef_at p d = if feqb (flit e (Z.of_nat (k d)) : F) f0 then None else Some (flit e (Z.of_nat (k d)))).
Proof.
  intros vars D C ps E. unfold polys in E. apply bind_Ok in E as (ds & Ed & E). apply mapM_pairs in Ed as [-> U]. rewrite filter_fst in E.
  set (vs := multi_product (repeat (rev (seq 0 (S D))) vars)) in *. set (degs := filter (fun d : list nat => list_sum d <=? D) (map mdeg_from_vec vs)) in E.
  match type of E with Ok ?x = Ok _ => assert (Hps : ps = x) by congruence end. clear E. subst ps.
  assert (Ics : forall k, In k (seq 0 (S C)) <-> k <= C) by (intros k; rewrite in_seq; lia). set (cs := seq 0 (S C)) in *. clearbody cs.
  assert (Iv : forall v, In v vs <-> length v = vars /\ forall a, In a v -> a <= D).
  { intros v. unfold vs. rewrite C121_multi_product, choice_repeat. split; intros [L H]; (split; [exact L|]); intros a Ia; specialize (H a Ia).
    - apply in_rev in H. apply in_seq in H. lia.
    - apply in_rev. rewrite rev_involutive. apply in_seq. lia. }
  assert (Nv : NoDup (map mdeg_from_vec vs)).
  { assert (N : NoDup vs).
    { unfold vs. apply nodup_multi. apply Forall_forall. intros x Ix. apply repeat_spec in Ix. subst x. apply NoDup_rev. apply seq_NoDup. }
    assert (L : forall v, In v vs -> length v = vars) by (intros v H; apply Iv; exact H). clear - N L. induction N as [|v l H N IH]; cbn [map]; [constructor|]. constructor.
    - intros I. apply in_map_iff in I as (w & Ew & Iw). rewrite !from_vec_ltrim in Ew. apply ltrim_inj in Ew; [subst w; contradiction|].
      rewrite (L w (or_intror Iw)), (L v (or_introl eq_refl)). reflexivity.
    - apply IH. intros w Iw. apply L. right. exact Iw. }
  assert (Nd : NoDup degs) by (apply NoDup_filter; exact Nv).
  assert (Id : forall d, In d degs <-> canonical d /\ length d <= vars /\ list_sum d <= D).
  { intros d. unfold degs. rewrite filter_In, in_map_iff. split.
    - intros [(v & <- & I) S]. apply Iv in I as [L I]. apply Nat.leb_le in S. rewrite from_vec_ltrim in *. split; [apply ltrim_canonical|]. split; [|exact S].
      pose proof (ltrim_length v). lia.
    - intros (Cd & L & S). split; [|apply Nat.leb_le; exact S]. exists (d ++ repeat 0 (vars - length d)). rewrite from_vec_ltrim. split; [apply pad_ltrim; assumption|].
      apply Iv. split; [rewrite app_length, repeat_length; lia|]. intros a Ia. apply in_app_or in Ia as [Ia|Ia]; [pose proof (list_sum_In d a Ia); lia|].
      apply repeat_spec in Ia. lia. }
  assert (U8 : forall d, In d degs -> list_sum d <= 255).
  { intros d I. unfold degs in I. apply filter_In in I as [I _]. rewrite Forall_forall in U. exact (U d I). }
  split.
  - intros p Ip. apply in_map_iff in Ip as (w & <- & Iw). apply C121_multi_product in Iw.
    assert (W : Forall2 (fun s d => exists k, k <= C /\ s = term_new (flit e (Z.of_nat k) : F) d) w degs).
    { clear - Iw Ics. clearbody degs. revert w Iw. induction degs as [|d degs IH]; intros w Iw; cbn [map] in Iw; inversion Iw as [|s c w' cs' Is Hw]; subst; constructor.
      - apply in_map_iff in Is as (k & <- & Ik). apply Ics in Ik. eauto.
      - apply IH. exact Hw. }
    assert (W2 : forall s, In s (filter (fun t => negb (term_is_zero t)) w) -> In (tdeg s) degs /\ exists k, 1 <= k <= C /\ coef s = flit e (Z.of_nat k)).
    { clear - W. induction W as [|s d w degs (k & Hk & Es) _ IH]; cbn [filter]; [intros s []|]. intros x I.
      assert (Later : In x (filter (fun t => negb (term_is_zero t)) w) -> In (tdeg x) (d :: degs) /\ exists k, 1 <= k <= C /\ coef x = flit e (Z.of_nat k)).
      { intros J. destruct (IH x J) as [A B]. split; [right; exact A|exact B]. }
      destruct (negb (term_is_zero s)) eqn:Z; [|auto]. destruct I as [<-|I]; [|auto]. apply negb_true_iff in Z.
      subst s. unfold term_new, term_is_zero in Z |- *. destruct (feqb (flit e (Z.of_nat k) : F) f0) eqn:Zk; [discriminate Z|]. cbn [tdeg coef]. split; [left; reflexivity|].
      exists k. split; [|reflexivity]. split; [|exact Hk]. destruct k; [discriminate Zk|lia]. }
    split; [|split].
    + clear - W Nd. clearbody degs. induction W as [|s d w degs (k & Hk & Es) W IH]; [constructor|]. inversion Nd as [|? ? H1 H2]; subst. cbn [filter].
      destruct (negb _) eqn:Z; [|apply IH; exact H2]. unfold distinct. cbn [map]. constructor; [|apply IH; exact H2]. intros I. apply H1.
      apply negb_true_iff in Z. unfold term_new, term_is_zero in Z. unfold term_new in I. destruct (feqb (flit e (Z.of_nat k) : F) f0) eqn:Zk; [discriminate Z|]. cbn [tdeg] in I.
      clear - I W. induction W as [|s d' w degs (k & _ & Es) _ IH]; [destruct I|]. cbn [filter] in I. destruct (negb (term_is_zero s)) eqn:Z; [|right; auto].
      destruct I as [I|I]; [|right; auto]. left. apply negb_true_iff in Z. subst s. unfold term_new, term_is_zero in Z, I. destruct (feqb (flit e (Z.of_nat k) : F) f0); [discriminate Z|]. exact I.
    + apply Forall_forall. intros s I. apply filter_In in I as [_ H]. apply negb_true_iff in H. exact H.
    + intros s I. destruct (W2 s I) as (Is & Ck). pose proof (U8 _ Is) as S. apply Id in Is as (I1 & I2 & I3).
      split; [split; [exact I1|apply Forall_forall; intros x Ix; pose proof (list_sum_In _ x Ix); lia]|]. split; [exact I2|]. split; [exact I3|exact Ck].
  - intros k Hk. set (w := map (fun d => term_new (flit e (Z.of_nat (k d)) : F) d) degs). exists (filter (fun t => negb (term_is_zero t)) w). split.
    + apply in_map_iff. exists w. split; [reflexivity|]. apply C121_multi_product. unfold w. clear - Hk Ics. clearbody degs. induction degs as [|d degs IH]; cbn [map]; constructor; [|exact IH].
      apply in_map_iff. exists (k d). split; [reflexivity|]. apply Ics. apply Hk.
    + intros d Cd L S. assert (I : In d degs) by (apply Id; auto). unfold w. clear - I Nd. clearbody degs. induction degs as [|d' degs IH]; [destruct I|]. inversion Nd as [|? ? N1 N2]; subst.
      assert (Z : ~ In d degs -> coef_at (filter (fun t => negb (term_is_zero t)) (map (fun d => term_new (flit e (Z.of_nat (k d)) : F) d) degs)) d = None).
      { intros Nn. apply coef_at_None. intros J. apply in_map_iff in J as (s & Es & J). apply filter_In in J as [J Z]. apply in_map_iff in J as (d2 & <- & J).
        apply negb_true_iff in Z. unfold term_new, term_is_zero in Z, Es. destruct (feqb (flit e (Z.of_nat (k d2)) : F) f0); [discriminate Z|]. cbn [tdeg] in Es. subst d2. contradiction. }
      cbn [map filter]. assert (X : term_is_zero (term_new (flit e (Z.of_nat (k d')) : F) d') = feqb (flit e (Z.of_nat (k d')) : F) f0).
      { unfold term_new, term_is_zero. destruct (feqb (flit e (Z.of_nat (k d')) : F) f0) eqn:Y; [reflexivity|exact Y]. }
      rewrite X. assert (Y : feqb (flit e (Z.of_nat (k d')) : F) f0 = false -> term_new (flit e (Z.of_nat (k d')) : F) d' = mkterm (flit e (Z.of_nat (k d')) : F) d') by (intros Y; unfold term_new; rewrite Y; reflexivity).
      destruct I as [->|I].
      * destruct (feqb (flit e (Z.of_nat (k d)) : F) f0); cbn [negb]; [exact (Z N1)|]. rewrite (Y eq_refl). cbn [coef_at tdeg coef]. destruct (list_eq_dec _ d d) as [_|H]; [reflexivity|contradiction].
      * destruct (feqb (flit e (Z.of_nat (k d')) : F) f0); cbn [negb]; [apply IH; assumption|]. rewrite (Y eq_refl). cbn [coef_at tdeg].
        destruct (list_eq_dec _ d' d) as [->|_]; [contradiction|]. apply IH; assumption.
Qed.
(** the divisors of the crate's test: two variables, degree at most one, coefficients up to two; 27 polynomials *)
Example C121_ex_polys : exists ps, polys e 2 1 2 = Ok ps /\ length ps = 27.
Proof. eexists. split; [reflexivity|]. reflexivity. Qed.
End Polys.
Print Assumptions C121_lu.
Print Assumptions C121_row_echelon.
Print Assumptions C121_rref.
Print Assumptions C121_is_rref.
Print Assumptions C121_is_rref_pivots_refuted.
Print Assumptions C121_is_rref_wide.
Print Assumptions C121_is_rref_columns_refuted.
Print Assumptions C121_all.
Print Assumptions C121_for_each.
Print Assumptions C121_multi_product.
Print Assumptions C121_multi_product_order.
Print Assumptions C121_kernel.
Print Assumptions C121_kernel_wide.
Print Assumptions C121_kernel_full_rank.
Print Assumptions C121_division.
Print Assumptions C121_division_float.
Print Assumptions C121_division_rational_refuted.
Print Assumptions C121_polys.
