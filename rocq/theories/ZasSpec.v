(** * Sums and intersections of row spaces from one echelon form *)
From Verif Require Import Base FieldIface LinSpec RrefSpec LinFacts.
From Coq Require Import Lia Ring Field Setoid.
Local Open Scope nat_scope.

Section Zas.
Context {K : MathField}.
Add Field Kf89 : (kth K).
Notation fmat := (nat -> nat -> K).
Notation vec := (nat -> K).
Implicit Types (A B C : fmat) (u v w : vec).

(** sums of a vector of the first row space and one of the second; vectors in both *)
Definition in_sum (n1 n2 m : nat) A B w : Prop :=
  exists u v, in_rowspace n1 m A u /\ in_rowspace n2 m B v /\ forall j, j < m -> w j = kadd (u j) (v j).
Definition in_both (n1 n2 m : nat) A B w : Prop := in_rowspace n1 m A w /\ in_rowspace n2 m B w.
(** the rows of A twice side by side, below them the rows of B followed by zeros *)
Definition doubled (n1 n2 m : nat) A B C : Prop :=
  (forall i j, i < n1 -> j < m -> C i j = A i j /\ C i (m + j) = A i j) /\
  (forall i j, i < n2 -> j < m -> C (n1 + i) j = B i j /\ C (n1 + i) (m + j) = k0).

Lemma rowspace_sum n m A w : in_rowspace n m A w <-> exists c, forall j, j < m -> w j = sumn n (fun k => kmul (c k) (A k j)).
Proof. split; intros (c & H); exists c; intros j Hj; rewrite H by exact Hj; rewrite lcomb_rows; reflexivity. Qed.

Section Fixed.
Context (n1 n2 m : nat) (A B C : fmat) (D : doubled n1 n2 m A B C).
Notation n := (n1 + n2).
Lemma comb_left c j : j < m -> sumn n (fun k => kmul (c k) (C k j)) = kadd (sumn n1 (fun k => kmul (c k) (A k j))) (sumn n2 (fun k => kmul (c (n1 + k)) (B k j))).
Proof.
  intros Hj. rewrite sumn_split. f_equal; apply sumn_ext; intros k Hk; f_equal; [apply (proj1 D k j Hk Hj)|apply (proj2 D k j Hk Hj)].
Qed.
Lemma comb_right c j : j < m -> sumn n (fun k => kmul (c k) (C k (m + j))) = sumn n1 (fun k => kmul (c k) (A k j)).
Proof.
  intros Hj. rewrite sumn_split. rewrite (sumn_zero' n2) by (intros k Hk; rewrite (proj2 (proj2 D k j Hk Hj)); ring).
  rewrite (sumn_ext n1 _ (fun k => kmul (c k) (A k j))) by (intros k Hk; rewrite (proj2 (proj1 D k j Hk Hj)); reflexivity). ring.
Qed.
Definition glue (c d : vec) : vec := fun k => if k <? n1 then c k else d (k - n1).
Lemma glue_left c d k : k < n1 -> glue c d k = c k.
Proof. intros H. unfold glue. apply Nat.ltb_lt in H. rewrite H. reflexivity. Qed.
Lemma glue_right c d k : glue c d (n1 + k) = d k.
Proof. unfold glue. destruct (Nat.ltb_spec (n1 + k) n1); [lia|]. f_equal. lia. Qed.

Lemma left_sum w : in_rowspace n m C w <-> in_sum n1 n2 m A B w.
Proof.
  rewrite rowspace_sum. split.
  - intros (c & H). exists (fun j => sumn n1 (fun k => kmul (c k) (A k j))), (fun j => sumn n2 (fun k => kmul (c (n1 + k)) (B k j))).
    split; [apply rowspace_sum; exists c; reflexivity|]. split; [apply rowspace_sum; exists (fun k => c (n1 + k)); reflexivity|].
    intros j Hj. rewrite H by exact Hj. apply comb_left. exact Hj.
  - intros (u & v & Hu & Hv & H). destruct (proj1 (rowspace_sum _ _ _ _) Hu) as (c & Hc). destruct (proj1 (rowspace_sum _ _ _ _) Hv) as (d & Hd). exists (glue c d).
    intros j Hj. rewrite comb_left by exact Hj. rewrite H, Hc, Hd by exact Hj. f_equal; apply sumn_ext; intros k Hk; [rewrite glue_left by exact Hk|rewrite glue_right]; reflexivity.
Qed.
Lemma right_both w : (exists z, in_rowspace n (m + m) C z /\ forall j, j < m -> z j = k0 /\ z (m + j) = w j) <-> in_both n1 n2 m A B w.
Proof.
  unfold in_both. rewrite !rowspace_sum. split.
  - intros (z & Hz & H). destruct (proj1 (rowspace_sum _ _ _ _) Hz) as (c & Hc). split.
    + exists c. intros j Hj. rewrite <- (proj2 (H j Hj)), Hc by lia. apply comb_right. exact Hj.
    + exists (fun k => kopp (c (n1 + k))). intros j Hj. rewrite <- (proj2 (H j Hj)), Hc by lia. rewrite comb_right by exact Hj.
      pose proof (proj1 (H j Hj)) as Z. rewrite Hc in Z by lia. rewrite comb_left in Z by exact Hj.
      rewrite (sumn_ext n2 _ (fun k => kopp (kmul (c (n1 + k)) (B k j)))) by (intros; ring). rewrite sumn_opp.
      set (x := sumn n1 _) in *. set (y := sumn n2 _) in *. transitivity (ksub (kadd x y) y); [ring|]. rewrite Z. ring.
  - intros ((c & Hc) & (d & Hd)). exists (fun j => sumn n (fun k => kmul (glue c (fun k => kopp (d k)) k) (C k j))).
    split; [apply rowspace_sum; exists (glue c (fun k => kopp (d k))); reflexivity|]. intros j Hj.
    assert (X : sumn n1 (fun k => kmul (glue c (fun k => kopp (d k)) k) (A k j)) = w j).
    { rewrite (Hc j Hj). apply sumn_ext. intros k Hk. rewrite glue_left by exact Hk. reflexivity. }
    assert (Y : sumn n2 (fun k => kmul (glue c (fun k => kopp (d k)) (n1 + k)) (B k j)) = kopp (w j)).
    { rewrite (Hd j Hj), <- sumn_opp. apply sumn_ext. intros k Hk. rewrite glue_right. ring. }
    rewrite comb_left, comb_right by exact Hj. rewrite X, Y. split; [ring|reflexivity].
Qed.

Section Echelon.
Context (r k : nat) (piv : nat -> nat) (E P : fmat).
Hypothesis (HE : ech n (m + m) r piv E) (IP : invertible n P) (MP : meq n (m + m) (mmul n P C) E).
Hypothesis (Hk : k <= r) (Lk : forall i, i < k -> piv i < m) (Gk : forall i, k <= i -> i < r -> m <= piv i).

Lemma ech_first : ech n m k piv E.
Proof.
  destruct HE as [H1 H2 H3 H4 H5 H6]. constructor; intros.
  - lia.
  - apply Lk. assumption.
  - apply H3. lia.
  - apply H4; [lia|assumption].
  - apply H5; [assumption|lia].
  - destruct (Nat.lt_ge_cases i r) as [L|L]; [apply H4; [exact L|]; specialize (Gk i ltac:(assumption) L); lia|apply H6; lia].
Qed.
Lemma sum_basis : is_basis m (in_sum n1 n2 m A B) (map (mrow E) (seq 0 k)).
Proof.
  apply (is_basis_iff m (in_rowspace n m C)); [apply left_sum|]. apply (ech_row_basis n m k piv C E P); [exact ech_first|exact IP|].
  intros i j Hi Hj. apply MP; lia.
Qed.
(** the second halves of the remaining rows *)
Definition lower : fmat := fun i j => E (k + i) (m + j).
Lemma ech_lower : ech (n - k) m (r - k) (fun i => piv (k + i) - m) lower.
Proof.
  destruct HE as [H1 H2 H3 H4 H5 H6]. unfold lower. constructor; intros.
  - lia.
  - pose proof (H2 (k + i) ltac:(lia)). lia.
  - pose proof (Gk (k + i) ltac:(lia) ltac:(lia)). replace (m + (piv (k + i) - m)) with (piv (k + i)) by lia. apply H3. lia.
  - apply H4; lia.
  - pose proof (H5 (k + i) (k + k0) ltac:(lia) ltac:(lia)). pose proof (Gk (k + i) ltac:(lia) ltac:(lia)). lia.
  - apply H6; lia.
Qed.
Lemma lower_zero i j : k <= i -> i < n -> j < m -> E i j = k0.
Proof. intros. apply (ech_zero _ _ _ _ _ ech_first); assumption. Qed.
Lemma both_basis : is_basis m (in_both n1 n2 m A B) (map (mrow lower) (seq 0 (r - k))).
Proof.
  apply (is_basis_iff m (in_rowspace (n - k) m lower)); [|apply (ech_rows_basis _ _ _ _ _ ech_lower)].
  pose proof (ech_le _ _ _ _ _ HE) as Hr.
  intros w. rewrite <- right_both. rewrite rowspace_sum. split.
  - intros (c & Hc). set (c' := fun i => if i <? k then k0 else c (i - k)).
    assert (X : forall j, sumn n (fun i => kmul (c' i) (E i j)) = sumn (n - k) (fun i => kmul (c i) (E (k + i) j))).
    { intros j. replace n with (k + (n - k)) at 1 by lia. rewrite sumn_split. rewrite (sumn_zero' k).
      - rewrite (sumn_ext (n - k) _ (fun i => kmul (c i) (E (k + i) j))); [ring|]. intros i Hi. unfold c'. destruct (Nat.ltb_spec (k + i) k); [lia|]. replace (k + i - k) with i by lia. reflexivity.
      - intros i Hi. unfold c'. apply Nat.ltb_lt in Hi. rewrite Hi. ring. }
    exists (fun j => sumn n (fun i => kmul (c' i) (E i j))). split.
    + apply (rowspace_iff n (m + m) P C E); [exact IP|exact MP|]. apply rowspace_sum. exists c'. reflexivity.
    + intros j Hj. rewrite !X. split; [apply sumn_zero'; intros i Hi; rewrite lower_zero by lia; ring|]. rewrite (Hc j Hj). reflexivity.
  - intros (z & Hz & H). apply (rowspace_iff n (m + m) P C E) in Hz; [|exact IP|exact MP]. destruct (proj1 (rowspace_sum _ _ _ _) Hz) as (c & Hc).
    assert (Z : forall i, i < k -> c i = k0).
    { destruct (ech_rows_basis _ _ _ _ _ ech_first) as (I & _ & _). intros i Hi. apply (I c); [|rewrite map_length, seq_length; exact Hi].
      intros j Hj. rewrite lcomb_rows. rewrite <- (proj1 (H j Hj)), Hc by lia. symmetry. apply sumn_mono; [lia|]. intros q Hq Hq'. rewrite lower_zero by lia. ring. }
    exists (fun i => c (k + i)). intros j Hj. rewrite <- (proj2 (H j Hj)), Hc by lia. replace n with (k + (n - k)) at 1 by lia. rewrite sumn_split, (sumn_zero' k) by (intros i Hi; rewrite (Z i Hi); ring).
    unfold lower. ring.
Qed.
End Echelon.

(** the rank of C is the sum of the ranks *)
Lemma doubled_dimension r1 r2 : dimension m (in_rowspace n1 m A) r1 -> dimension m (in_rowspace n2 m B) r2 -> dimension (m + m) (in_rowspace n (m + m) C) (r1 + r2).
Proof.
  intros ((us & (Iu & Fu & Su) & Lu) & _) ((vs & (Iv & Fv & Sv) & Lv) & _).
  set (dbl := fun (u : vec) j => if j <? m then u j else u (j - m)). set (ext := fun (v : vec) j => if j <? m then v j else @k0 K).
  assert (LC : forall c j, j < m -> lcomb (map dbl us ++ map ext vs) c j = kadd (lcomb us c j) (lcomb vs (fun k => c (length us + k)) j) /\ lcomb (map dbl us ++ map ext vs) c (m + j) = lcomb us c j).
  { intros c j Hj. unfold lcomb. rewrite app_length, !map_length, !sumn_split.
    assert (Nu : forall k, k < length us -> nth k (map dbl us ++ map ext vs) vzero = dbl (nth k us vzero)).
    { intros k Hk. rewrite app_nth1 by (rewrite map_length; exact Hk). rewrite (nth_indep _ vzero (dbl vzero)) by (rewrite map_length; exact Hk). apply map_nth. }
    assert (Nv : forall k, k < length vs -> nth (length us + k) (map dbl us ++ map ext vs) vzero = ext (nth k vs vzero)).
    { intros k Hk. rewrite app_nth2 by (rewrite map_length; lia). rewrite map_length. replace (length us + k - length us) with k by lia.
      rewrite (nth_indep _ vzero (ext vzero)) by (rewrite map_length; exact Hk). apply map_nth. }
    split.
    - f_equal; apply sumn_ext; intros k Hk; f_equal; [rewrite Nu by exact Hk; unfold dbl|rewrite Nv by exact Hk; unfold ext]; (destruct (Nat.ltb_spec j m); [reflexivity|lia]).
    - rewrite (sumn_zero' (length vs)).
      + rewrite (sumn_ext (length us) _ (fun k => kmul (c k) (nth k us vzero j))); [ring|]. intros k Hk. rewrite Nu by exact Hk. unfold dbl. destruct (Nat.ltb_spec (m + j) m); [lia|]. replace (m + j - m) with j by lia. reflexivity.
      + intros k Hk. rewrite Nv by exact Hk. unfold ext. destruct (Nat.ltb_spec (m + j) m); [lia|]. ring. }
  assert (SP : forall (P : nat -> Prop), (forall j, j < m -> P j /\ P (m + j)) -> forall j, j < m + m -> P j).
  { intros P HP j Hj. destruct (Nat.lt_ge_cases j m) as [L|L]; [apply HP; exact L|]. replace j with (m + (j - m)) by lia. apply HP. lia. }
  apply (basis_dimension _ _ (map dbl us ++ map ext vs)); [|rewrite app_length, !map_length; lia]. split; [|split].
  - intros c H. assert (Zu : forall k, k < length us -> c k = k0).
    { apply (Iu c). intros j Hj. rewrite <- (proj2 (LC c j Hj)). apply H. lia. }
    assert (Zv : forall k, k < length vs -> c (length us + k) = k0).
    { apply (Iv (fun k => c (length us + k))). intros j Hj. pose proof (H j ltac:(lia)) as X. rewrite (proj1 (LC c j Hj)) in X. rewrite <- X.
      assert (Y : lcomb us c j = k0) by (unfold lcomb; apply sumn_zero'; intros k Hk; rewrite (Zu k Hk); ring). rewrite Y. ring. }
    intros k Hk. rewrite app_length, !map_length in Hk. destruct (Nat.lt_ge_cases k (length us)) as [L|L]; [apply Zu; exact L|]. replace k with (length us + (k - length us)) by lia. apply Zv. lia.
  - apply Forall_app. rewrite Forall_forall in Fu, Fv. split; apply Forall_forall; intros x I; apply in_map_iff in I as (y & <- & I).
    + pose proof (Fu y I) as X. destruct (proj1 (rowspace_sum _ _ _ _) X) as (c & Hc). apply rowspace_sum. exists (glue c (fun _ => k0)). apply SP. intros j Hj. rewrite comb_left, comb_right by exact Hj.
      assert (Y : sumn n1 (fun k => kmul (glue c (fun _ => k0) k) (A k j)) = y j) by (rewrite (Hc j Hj); apply sumn_ext; intros k Hk; rewrite glue_left by exact Hk; reflexivity).
      rewrite Y, (sumn_zero' n2) by (intros k Hk; rewrite glue_right; ring). unfold dbl. destruct (Nat.ltb_spec j m); [|lia]. destruct (Nat.ltb_spec (m + j) m); [lia|]. replace (m + j - m) with j by lia. split; [ring|reflexivity].
    + pose proof (Fv y I) as X. destruct (proj1 (rowspace_sum _ _ _ _) X) as (c & Hc). apply rowspace_sum. exists (glue (fun _ => k0) c). apply SP. intros j Hj. rewrite comb_left, comb_right by exact Hj.
      assert (Y : sumn n2 (fun k => kmul (glue (fun _ => k0) c (n1 + k)) (B k j)) = y j) by (rewrite (Hc j Hj); apply sumn_ext; intros k Hk; rewrite glue_right; reflexivity).
      rewrite Y, (sumn_zero' n1) by (intros k Hk; rewrite glue_left by exact Hk; ring). unfold ext. destruct (Nat.ltb_spec j m); [|lia]. destruct (Nat.ltb_spec (m + j) m); [lia|]. split; [ring|reflexivity].
  - intros w Hw. destruct (proj1 (rowspace_sum _ _ _ _) Hw) as (c & Hc).
    destruct (Su (fun j => sumn n1 (fun k => kmul (c k) (A k j)))) as (d & Hd); [apply rowspace_sum; exists c; reflexivity|].
    destruct (Sv (fun j => sumn n2 (fun k => kmul (c (n1 + k)) (B k j)))) as (e & He); [apply rowspace_sum; exists (fun k => c (n1 + k)); reflexivity|].
    exists (fun k => if k <? length us then d k else e (k - length us)). apply SP. intros j Hj.
    destruct (LC (fun k => if k <? length us then d k else e (k - length us)) j Hj) as (L1 & L2). rewrite L1, L2, !Hc by lia. rewrite comb_left, comb_right by exact Hj. rewrite (Hd j Hj), (He j Hj).
    assert (Y : lcomb us (fun k => if k <? length us then d k else e (k - length us)) j = lcomb us d j).
    { unfold lcomb. apply sumn_ext. intros k Hk. apply Nat.ltb_lt in Hk. rewrite Hk. reflexivity. }
    rewrite Y. split; [|reflexivity]. f_equal. unfold lcomb. apply sumn_ext. intros k Hk. destruct (Nat.ltb_spec (length us + k) (length us)); [lia|]. replace (length us + k - length us) with k by lia. reflexivity.
Qed.
End Fixed.
End Zas.
