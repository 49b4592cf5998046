(** * Systems of linear equations: C104.

    What the transformation [p] of an echelon form, the bound variables and the kernel vectors say about the solutions of A x = b. *)
From Coq Require Import ZArith QArith Qcanon.
From Verif Require Import Base BaseLemmas IntModel RatModel FieldIface RatProofs UtilModel MatModel AlgModel
  LinSpec RrefSpec MatProofs AlgProofs Ideal NoOverflow LinFacts Farkas PropMat PropLin.
From Coq Require Import Field_theory Ring Field.
Local Open Scope nat_scope.

(** ** Linear algebra *)
Section Facts.
Context {K : MathField}.
Add Field Kf27 : (kth K).
Notation vec := (nat -> K).
Notation fmat := (nat -> nat -> K).

(** x solves A x = b, A with n rows and m columns *)
Definition solves (n m : nat) (A : fmat) (x b : vec) : Prop := forall i, i < n -> mvec m A x i = b i.

Lemma ech_reach n m r piv (B : fmat) (c : vec) : ech n m r piv B -> (forall i, r <= i -> i < n -> c i = k0) -> exists x, solves n m B x c.
Proof.
  intros E Z. set (ws := map (mcol B) (map piv (seq 0 r))).
  assert (Lw : length ws = r) by (unfold ws; rewrite !map_length; apply seq_length).
  assert (Nw : forall k i, k < r -> nth k ws vzero i = B i (piv k)).
  { intros k i Hk. unfold ws. rewrite map_map. rewrite (nth_indep _ vzero (mcol B (piv 0))) by (rewrite map_length, seq_length; exact Hk).
    rewrite (map_nth (fun j => mcol B (piv j))), seq_nth by exact Hk. reflexivity. }
  assert (I : lin_indep r ws).
  { destruct (ech_col_basis n m r piv B B mid E (invertible_id n) (mmul_id_l n m B)) as (I & _). intros d Hd k Hk. apply (I d); [|exact Hk].
    intros i Hi. destruct (Nat.lt_ge_cases i r) as [L|L]; [apply Hd; exact L|]. unfold lcomb. fold ws. apply sumn_zero'. intros j Hj.
    rewrite Nw by lia. rewrite (ech_zero _ _ _ _ _ E i (piv j) L Hi) by (apply (ech_lt _ _ _ _ _ E); lia). ring. }
  destruct (many_indep_span r ws c I ltac:(lia)) as (d & Hd).
  exists (fun j => sumn r (fun k => if piv k =? j then d k else k0)). intros i Hi. unfold mvec.
  rewrite (sumn_ext m _ (fun l => sumn r (fun k => if piv k =? l then kmul (d k) (B i l) else k0))).
  2:{ intros l Hl. rewrite <- sumn_mul_l. apply sumn_ext. intros k Hk. destruct (piv k =? l); ring. }
  rewrite sumn_swap. rewrite (sumn_ext r _ (fun k => kmul (d k) (B i (piv k)))).
  2:{ intros k Hk. rewrite (sumn_delta m (piv k)); [rewrite Nat.eqb_refl; reflexivity|apply (ech_lt _ _ _ _ _ E); exact Hk|].
      intros l Hl N. destruct (Nat.eqb_spec (piv k) l); [congruence|reflexivity]. }
  destruct (Nat.lt_ge_cases i r) as [L|L].
  - rewrite (Hd i L). unfold lcomb. rewrite Lw. apply sumn_ext. intros k Hk. rewrite Nw by exact Hk. reflexivity.
  - rewrite (Z i L Hi). apply sumn_zero'. intros k Hk. rewrite (ech_zero _ _ _ _ _ E i (piv k) L Hi) by (apply (ech_lt _ _ _ _ _ E); exact Hk). ring.
Qed.
Lemma solves_mul n m (P A B : fmat) (x b : vec) : invertible n P -> meq n m (mmul n P A) B ->
  (solves n m A x b <-> solves n m B x (mvec n P b)).
Proof.
  intros (Q & Q1 & Q2) M. split; intros H i Hi.
  - rewrite <- (mvec_ext n m (mmul n P A) B x x M (fun _ _ => eq_refl) i Hi), mvec_mmul.
    apply (mvec_ext n n P P); [apply meq_refl|exact H|exact Hi].
  - assert (X : forall k, k < n -> mvec n P (fun l => ksub (mvec m A x l) (b l)) k = k0).
    { intros k Hk. transitivity (ksub (mvec m B x k) (mvec n P b k)); [|rewrite (H k Hk); ring].
      rewrite <- (mvec_ext n m (mmul n P A) B x x M (fun _ _ => eq_refl) k Hk), mvec_mmul. unfold mvec. rewrite <- sumn_sub. apply sumn_ext. intros. ring. }
    pose proof (invertible_inj n P _ (ex_intro _ Q (conj Q1 Q2)) X i Hi) as Y. cbn beta in Y.
    transitivity (kadd (ksub (mvec m A x i) (b i)) (b i)); [ring|rewrite Y; ring].
Qed.
Lemma ech_solvable n m r piv (P A B : fmat) (b : vec) : invertible n P -> meq n m (mmul n P A) B -> ech n m r piv B ->
  ((exists x, solves n m A x b) <-> forall i, r <= i -> i < n -> mvec n P b i = k0).
Proof.
  intros IP M E. split.
  - intros (x & H) i L Hi. apply (solves_mul n m P A B x b IP M) in H. rewrite <- (H i Hi). unfold mvec. apply sumn_zero'. intros l Hl.
    rewrite (ech_zero _ _ _ _ _ E) by assumption. ring.
  - intros Z. destruct (ech_reach n m r piv B (mvec n P b) E Z) as (x & H). exists x. apply (solves_mul n m P A B); assumption.
Qed.
(** the solution with the free variables zero *)
Lemma rref_particular n m r piv (P A B : fmat) (b x : vec) : invertible n P -> meq n m (mmul n P A) B -> rref n m r piv B ->
  (forall k, k < r -> x (piv k) = mvec n P b k) -> (forall j, j < m -> is_piv r piv j = false -> x j = k0) ->
  (forall i, r <= i -> i < n -> mvec n P b i = k0) -> solves n m A x b.
Proof.
  intros IP M R X1 X2 Z. apply (solves_mul n m P A B); [exact IP|exact M|]. intros i Hi. unfold mvec at 1.
  rewrite (sumn_ext m _ (fun l => sumn r (fun k => if piv k =? l then kmul (B i (piv k)) (x (piv k)) else k0))).
  - rewrite sumn_swap. rewrite (sumn_ext r _ (fun k => kmul (if i =? k then k1 else k0) (mvec n P b k))).
    + destruct (Nat.lt_ge_cases i r) as [L|L].
      * rewrite (sumn_delta r i); [rewrite Nat.eqb_refl; ring|exact L|]. intros k Hk N. destruct (Nat.eqb_spec i k); [congruence|ring].
      * rewrite (Z i L Hi). apply sumn_zero'. intros k Hk. destruct (Nat.eqb_spec i k); [lia|ring].
    + intros k Hk. rewrite (sumn_delta m (piv k)).
      * rewrite Nat.eqb_refl, X1 by exact Hk. rewrite (rref_unit n m r piv B R) by assumption. reflexivity.
      * apply (ech_lt _ _ _ _ _ (proj1 R)). exact Hk.
      * intros l Hl N. destruct (Nat.eqb_spec (piv k) l); [congruence|reflexivity].
  - intros l Hl. destruct (is_piv r piv l) eqn:Ep.
    + apply is_piv_true in Ep. destruct Ep as (k & Hk & <-). rewrite (sumn_delta r k); [rewrite Nat.eqb_refl; reflexivity|exact Hk|].
      intros k' Hk' N. destruct (Nat.eqb_spec (piv k') (piv k)) as [Eq|]; [|reflexivity]. exfalso. apply N. apply (ech_inj _ _ _ _ _ (proj1 R)); assumption.
    + rewrite (X2 l Hl Ep). rewrite sumn_zero'; [ring|]. intros k Hk. apply (proj1 (is_piv_false r piv l)) with (i := k) in Ep; [|exact Hk].
      destruct (Nat.eqb_spec (piv k) l); [congruence|reflexivity].
Qed.
Lemma solves_diff n m (A : fmat) (x y b : vec) : solves n m A x b -> (solves n m A y b <-> in_kernel n m A (fun j => ksub (y j) (x j))).
Proof.
  intros H. assert (X : forall i, mvec m A (fun j => ksub (y j) (x j)) i = ksub (mvec m A y i) (mvec m A x i)).
  { intros i. unfold mvec. rewrite <- sumn_sub. apply sumn_ext. intros. ring. }
  split; intros G i Hi.
  - rewrite X, (G i Hi), (H i Hi). ring.
  - specialize (G i Hi). rewrite X, (H i Hi) in G. transitivity (kadd (ksub (mvec m A y i) (b i)) (b i)); [ring|rewrite G; ring].
Qed.
(** y with y A = 0 *)
Definition in_left_kernel (n m : nat) (A : fmat) (y : vec) : Prop := forall j, j < m -> sumn n (fun i => kmul (y i) (A i j)) = k0.
Lemma lcomb_rows_from (P : fmat) r k c j : lcomb (map (mrow P) (seq r k)) c j = sumn k (fun i => kmul (c i) (P (r + i) j)).
Proof.
  unfold lcomb. rewrite map_length, seq_length. apply sumn_ext. intros i Hi. f_equal.
  rewrite (nth_indep _ vzero (mrow P 0)) by (rewrite map_length, seq_length; exact Hi).
  rewrite map_nth, seq_nth by exact Hi. reflexivity.
Qed.
Lemma sumn_split_at r n (f : nat -> K) : r <= n -> sumn n f = kadd (sumn r f) (sumn (n - r) (fun i => f (r + i))).
Proof. intros L. rewrite <- sumn_split. f_equal. lia. Qed.
Lemma ech_left_kernel n m r piv (P A B : fmat) : invertible n P -> meq n m (mmul n P A) B -> ech n m r piv B ->
  is_basis n (in_left_kernel n m A) (map (mrow P) (seq r (n - r))).
Proof.
  intros (Q & Q1 & Q2) M E. pose proof (ech_le _ _ _ _ _ E) as Lr. split; [|split].
  - intros c H k Hk. rewrite map_length, seq_length in Hk.
    assert (G : forall j, j < n -> sumn n (fun i => kmul (if r <=? i then c (i - r) else k0) (P i j)) = k0).
    { intros j Hj. transitivity (lcomb (map (mrow P) (seq r (n - r))) c j); [|exact (H j Hj)]. rewrite lcomb_rows_from. rewrite (sumn_split_at r n _ Lr).
      rewrite (sumn_zero' r (fun i => kmul (if r <=? i then c (i - r) else k0) (P i j))); [|intros i Hi; destruct (Nat.leb_spec r i); [lia|ring]].
      replace (sumn (n - r) (fun i => kmul (if r <=? r + i then c (r + i - r) else k0) (P (r + i) j))) with (sumn (n - r) (fun i => kmul (c i) (P (r + i) j))); [ring|].
      apply sumn_ext. intros i Hi. destruct (Nat.leb_spec r (r + i)); [|lia]. replace (r + i - r) with i by lia. reflexivity. }
    (* multiply by the inverse *)
    assert (G2 : sumn n (fun i => kmul (if r <=? i then c (i - r) else k0) (mmul n P Q i (r + k))) = k0).
    { rewrite (sumn_ext n _ (fun i => sumn n (fun l => kmul (kmul (if r <=? i then c (i - r) else k0) (P i l)) (Q l (r + k))))).
      - rewrite sumn_swap. apply sumn_zero'. intros l Hl. rewrite sumn_mul_r, (G l Hl). ring.
      - intros i Hi. unfold mmul. rewrite <- sumn_mul_l. apply sumn_ext. intros. ring. }
    rewrite (sumn_delta n (r + k)) in G2; [|lia|].
    + rewrite Q1 in G2 by lia. rewrite mid_eq in G2. destruct (Nat.leb_spec r (r + k)); [|lia]. replace (r + k - r) with k in G2 by lia. rewrite <- G2. ring.
    + intros i Hi N. rewrite Q1 by lia. rewrite mid_neq by exact N. ring.
  - apply Forall_forall. intros y Hy. apply in_map_iff in Hy. destruct Hy as (i & <- & Hi). apply in_seq in Hi. intros j Hj.
    change (mmul n P A i j = k0). rewrite M by lia. apply (ech_zero _ _ _ _ _ E); lia.
  - intros y Hy.
    set (c := fun i => sumn n (fun l => kmul (y l) (Q l i))).
    assert (Yc : forall j, j < n -> y j = sumn n (fun i => kmul (c i) (P i j))).
    { intros j Hj. unfold c. rewrite (sumn_ext n _ (fun i => sumn n (fun l => kmul (y l) (kmul (Q l i) (P i j))))).
      - rewrite sumn_swap. rewrite (sumn_ext n _ (fun l => kmul (y l) (mmul n Q P l j))).
        + rewrite (sumn_delta n j); [rewrite Q2 by lia; rewrite mid_eq; ring|exact Hj|]. intros l Hl N. rewrite Q2 by lia. rewrite mid_neq by exact N. ring.
        + intros l Hl. unfold mmul. rewrite <- sumn_mul_l. reflexivity.
      - intros i Hi. rewrite <- sumn_mul_r. apply sumn_ext. intros. ring. }
    assert (CB : forall j, j < m -> lcomb (map (mrow B) (seq 0 r)) c j = k0).
    { intros j Hj. rewrite lcomb_rows. transitivity (sumn n (fun i => kmul (c i) (B i j))).
      - symmetry. apply sumn_mono; [exact Lr|]. intros i L Hi. rewrite (ech_zero _ _ _ _ _ E) by assumption. ring.
      - transitivity (sumn n (fun l => kmul (y l) (A l j))); [|exact (Hy j Hj)]. rewrite (sumn_ext n _ (fun i => sumn n (fun l => kmul (kmul (c i) (P i l)) (A l j)))).
        + rewrite sumn_swap. apply sumn_ext. intros l Hl. rewrite sumn_mul_r, <- (Yc l Hl). reflexivity.
        + intros i Hi. rewrite <- M by assumption. unfold mmul. rewrite <- sumn_mul_l. apply sumn_ext. intros. ring. }
    destruct (ech_rows_basis n m r piv B E) as (I & _).
    assert (C0 : forall i, i < r -> c i = k0) by (intros i Hi; apply (I c CB); rewrite map_length, seq_length; exact Hi).
    exists (fun i => c (r + i)). intros j Hj. rewrite (Yc j Hj), lcomb_rows_from. rewrite (sumn_split_at r n _ Lr).
    rewrite (sumn_zero' r); [ring|]. intros i Hi. rewrite (C0 i Hi). ring.
Qed.
(** an equation has a solution iff b lies in the column space *)
Lemma solves_colspace n m (A : fmat) (b : vec) : (exists x, solves n m A x b) <-> in_colspace n m A b.
Proof.
  split; intros (c & H); exists c; intros i Hi.
  - rewrite lcomb_cols_seq, <- (H i Hi). unfold mvec. apply sumn_ext. intros. ring.
  - rewrite (H i Hi), lcomb_cols_seq. unfold mvec. apply sumn_ext. intros. ring.
Qed.
(** a subspace of the same dimension is everything *)
Lemma same_dimension n (P Q : vec -> Prop) k : (forall w, P w -> Q w) -> dimension n P k -> dimension n Q k ->
  exists vs, Forall P vs /\ forall w, Q w -> in_span n vs w.
Proof.
  intros Sub [(vs & (I & FP & _) & Lv) _] [(ws & (_ & _ & Sp) & Lw) _]. exists vs. split; [exact FP|]. intros w Hw.
  destruct (in_span_choice n ws vs) as (C & HC).
  { eapply Forall_impl; [|exact FP]. intros v Hv. apply Sp, Sub, Hv. }
  destruct (Sp w Hw) as (e & He). set (rows := map (mrow C) (seq 0 k)).
  assert (Ind : lin_indep k rows).
  { intros d Hd i Hi. apply (I d); [|unfold rows in Hi; rewrite map_length, seq_length in Hi; lia]. intros j Hj. unfold lcomb.
    rewrite (sumn_ext _ _ (fun i => sumn k (fun l => kmul (kmul (d i) (C i l)) (nth l ws vzero j)))).
    - rewrite sumn_swap. apply sumn_zero'. intros l Hl. rewrite sumn_mul_r. specialize (Hd l Hl). unfold rows in Hd. rewrite lcomb_rows in Hd. rewrite Lv, Hd. ring.
    - intros i' Hi'. rewrite (HC i' j Hi' Hj). unfold lcomb. rewrite Lw, <- sumn_mul_l. apply sumn_ext. intros. ring. }
  destruct (many_indep_span k rows e Ind) as (d & Hd); [unfold rows; rewrite map_length, seq_length; lia|].
  exists d. intros j Hj. rewrite (He j Hj). unfold lcomb. rewrite Lw, Lv.
  rewrite (sumn_ext k _ (fun l => sumn k (fun i => kmul (kmul (d i) (C i l)) (nth l ws vzero j)))).
  - rewrite sumn_swap. apply sumn_ext. intros i Hi. rewrite (HC i j ltac:(lia) Hj). unfold lcomb. rewrite Lw, <- sumn_mul_l. apply sumn_ext. intros. ring.
  - intros l Hl. rewrite (Hd l Hl). unfold rows. rewrite lcomb_rows, <- sumn_mul_r. reflexivity.
Qed.
End Facts.

(** ** C104 *)
Section PropSolve.
Context {F : FieldImpl} {K : MathField} (FS : FieldSpec F K) (T : StabImpl F) (TS : StabSpec FS T).
Add Field Kf28 : (kth K).
Notation mat := (mat F).
Notation val := (mden FS).
Notation okm := (okm FS).
Notation vec_of := (vec_of FS).
Notation form := (@form F).

Lemma apply_p n (p b c : mat) : okm n n p -> okm n 1 b -> mat_mul p b = Ok c -> okm n 1 c /\ forall i, i < n -> vec_of c i = mvec n (val p) (vec_of b) i.
Proof.
  intros (Wp & Rp & Cp) (Wb & Rb & Cb) E. pose proof (safe_val _ _ _ (C47_mul FS p b Wp Wb ltac:(congruence)) E) as (Wc & Rc & Cc & V).
  split; [repeat split; try congruence; apply Wc|]. intros i Hi. unfold vec_of, PropLin.vec_of. rewrite V by lia. rewrite Cp. reflexivity.
Qed.

(** A x = b has a solution iff p*b vanishes below the rank; [c] is the result of multiplying p and b *)
Theorem C104_solvable : forall a n m s r b c, okm n m a -> echelon_of T a s \/ rref_of T a s -> form_rank T s = Ok r -> okm n 1 b -> mat_mul (fp s) b = Ok c ->
  ((exists x, solves n m (val a) x (vec_of b)) <-> forall i, r <= i -> i < n -> vec_of c i = k0).
Proof.
  intros a n m s r b c W H Er Wb Ec. destruct (form_of FS T TS a n m s W H) as (RE & r' & piv & E).
  pose proof (row_equivalent_form_ok _ _ _ _ _ RE) as FO. rewrite (form_rank_ok FS T TS _ _ _ _ _ _ _ FO E) in Er. injection Er as ->.
  destruct RE as (Wp & _ & I & M). destruct (apply_p n (fp s) b c Wp Wb Ec) as [_ Vc].
  rewrite (ech_solvable n m r piv (val (fp s)) (val a) (val (fb s)) (vec_of b) I M E). split; intros Z i L Hi.
  - rewrite (Vc i Hi). auto.
  - rewrite <- (Vc i Hi). auto.
Qed.
(** with the reduced form: putting the entries of p*b at the bound variables and zero elsewhere solves every solvable system, and the other solutions differ by
    combinations of the kernel vectors *)
Theorem C104_solution : forall a n m s r b c bound x, okm n m a -> rref_of T a s -> form_rank T s = Ok r -> okm n 1 b -> mat_mul (fp s) b = Ok c ->
  bound_variables T (fb s) = Ok bound -> (forall k, k < r -> x (nth k bound 0) = vec_of c k) -> (forall j, j < m -> ~ In j bound -> x j = k0) ->
  (exists y, solves n m (val a) y (vec_of b)) ->
  solves n m (val a) x (vec_of b) /\
  forall vs, compute_kernel T s = Ok vs -> forall y, solves n m (val a) y (vec_of b) <-> exists d, forall j, j < m -> y j = kadd (x j) (lcomb (map vec_of vs) d j).
Proof.
  intros a n m s r b c bound x W H Er Wb Ec Eb X1 X2 Sol. destruct (C52_rref FS T TS a n m s W H) as (RE & r' & piv & R).
  pose proof (row_equivalent_form_ok _ _ _ _ _ RE) as FO. pose proof Er as Er'. rewrite (form_rank_ok FS T TS _ _ _ _ _ _ _ FO (proj1 R)) in Er. injection Er as ->.
  pose proof (proj1 (C104_solvable a n m s r b c W (or_intror H) Er' Wb Ec) Sol) as Z.
  pose proof RE as (Wp & WB & I & M). destruct (apply_p n (fp s) b c Wp Wb Ec) as [_ Vc].
  pose proof (okm_mrep _ _ _ _ WB) as RB. rewrite (bound_variables_ok FS T TS _ _ _ _ _ _ RB (proj1 R)) in Eb. injection Eb as <-.
  pose proof (ech_le _ _ _ _ _ (proj1 R)) as Lr.
  assert (X : solves n m (val a) x (vec_of b)).
  { apply (rref_particular n m r piv (val (fp s)) (val a) (val (fb s)) (vec_of b) x I M R).
    - intros k Hk. rewrite <- Vc by lia. rewrite <- (X1 k Hk). f_equal. rewrite (nth_indep _ 0 (piv 0)) by (rewrite map_length, seq_length; exact Hk).
      rewrite map_nth, seq_nth by exact Hk. reflexivity.
    - intros j Hj Np. apply X2; [exact Hj|]. intros Hin. apply in_map_iff in Hin. destruct Hin as (k & Ek & Hk). apply in_seq in Hk.
      apply (proj1 (is_piv_false r piv j)) with (i := k) in Np; [congruence|lia].
    - intros i L Hi. rewrite <- Vc by exact Hi. auto. }
  split; [exact X|]. intros vs Ek y.
  pose proof (safe_val _ _ _ (C54_kernel FS T TS a n m s W H) Ek) as (_ & (_ & KV & KS) & _).
  rewrite (solves_diff n m (val a) x y (vec_of b) X). split.
  - intros G. destruct (KS _ G) as (d & Hd). exists d. intros j Hj. rewrite <- (Hd j Hj). ring.
  - intros (d & Hd). apply (in_kernel_ext n m (val a) (lcomb (map vec_of vs) d)).
    + intros j Hj. rewrite (Hd j Hj). ring.
    + intros i Hi. unfold mvec, lcomb. rewrite (sumn_ext m _ (fun l => sumn (length (map vec_of vs)) (fun k => kmul (d k) (kmul (val a i l) (nth k (map vec_of vs) vzero l))))).
      * rewrite sumn_swap. apply sumn_zero'. intros k Hk. rewrite sumn_mul_l. rewrite Forall_forall in KV. pose proof (KV _ (nth_In _ vzero Hk) i Hi) as G.
        unfold mvec in G. rewrite G. ring.
      * intros l Hl. rewrite <- sumn_mul_l. apply sumn_ext. intros. ring.
Qed.
(** a solvable system has one solution iff the rank is the number of columns *)
Theorem C104_unique : forall a n m s r b, okm n m a -> echelon_of T a s \/ rref_of T a s -> form_rank T s = Ok r -> (exists y, solves n m (val a) y b) ->
  ((forall x y, solves n m (val a) x b -> solves n m (val a) y b -> forall j, j < m -> x j = y j) <-> r = m).
Proof.
  intros a n m s r b W H Er (x0 & S0). destruct (C53_nullity FS T TS a n m s W H) as (r' & Er' & _ & D). rewrite Er in Er'. injection Er' as <-.
  destruct (C53_rank FS T TS a n m s W H) as (r' & Er' & _ & Lm & _). rewrite Er in Er'. injection Er' as <-.
  destruct D as [(vs & (I & KV & KS) & Lv) _]. split.
  - intros U. destruct vs as [|v vs]; [cbn in Lv; lia|]. exfalso.
    assert (V0 : forall j, j < m -> v j = k0).
    { intros j Hj. inversion KV as [|? ? Kv _]; subst. assert (S1 : solves n m (val a) (fun j => kadd (x0 j) (v j)) b).
      { apply (solves_diff n m (val a) x0); [exact S0|]. apply (in_kernel_ext n m (val a) v); [intros; ring|exact Kv]. }
      pose proof (U _ _ S1 S0 j Hj) as E. cbn beta in E. transitivity (ksub (kadd (x0 j) (v j)) (x0 j)); [ring|rewrite E; ring]. }
    assert (O : (@k1 K) = k0).
    { apply (I (fun k => if k =? 0 then k1 else k0)) with (k := 0); [|cbn; lia]. intros j Hj. unfold lcomb. apply sumn_zero'. intros [|k] Hk; cbn [Nat.eqb nth].
      - rewrite (V0 j Hj). ring.
      - ring. }
    exact (F_1_neq_0 (kth K) O).
  - intros -> x y Sx Sy j Hj. apply (solves_diff n m (val a) y x b Sy) in Sx. destruct (KS _ Sx) as (d & Hd). specialize (Hd j Hj).
    destruct vs; [|cbn in Lv; lia]. cbn in Hd. transitivity (kadd (ksub (x j) (y j)) (y j)); [ring|rewrite Hd; ring].
Qed.
(** the rows of p from the rank on are a basis of the y with y A = 0; the rows of b before it are a basis of the row space *)
Theorem C104_left_kernel : forall a n m s r, okm n m a -> echelon_of T a s \/ rref_of T a s -> form_rank T s = Ok r ->
  is_basis n (in_left_kernel n m (val a)) (map (mrow (val (fp s))) (seq r (n - r))) /\
  is_basis m (in_rowspace n m (val a)) (map (mrow (val (fb s))) (seq 0 r)).
Proof.
  intros a n m s r W H Er. destruct (form_of FS T TS a n m s W H) as (RE & r' & piv & E).
  pose proof (row_equivalent_form_ok _ _ _ _ _ RE) as FO. rewrite (form_rank_ok FS T TS _ _ _ _ _ _ _ FO E) in Er. injection Er as ->.
  destruct RE as (_ & _ & I & M). split; [exact (ech_left_kernel n m r piv _ _ _ I M E)|exact (ech_row_basis n m r piv _ _ _ E I M)].
Qed.
(** Rouche-Capelli: [a'] is [a] with the column [b] appended *)
Theorem C104_rouche_capelli : forall a a' n m s s' r r' b, okm n m a -> okm n (S m) a' -> echelon_of T a s \/ rref_of T a s -> echelon_of T a' s' \/ rref_of T a' s' ->
  form_rank T s = Ok r -> form_rank T s' = Ok r' -> (forall i j, i < n -> j < m -> val a' i j = val a i j) -> (forall i, i < n -> val a' i m = b i) ->
  ((exists x, solves n m (val a) x b) <-> r' = r).
Proof.
  intros a a' n m s s' r r' b W W' H H' Er Er' Va Vb.
  destruct (C53_rank FS T TS a n m s W H) as (q & Eq & _ & _ & D & _). rewrite Er in Eq. injection Eq as <-.
  destruct (C53_rank FS T TS a' n (S m) s' W' H') as (q & Eq & _ & _ & D' & _). rewrite Er' in Eq. injection Eq as <-.
  assert (Sub : forall w, in_colspace n m (val a) w -> in_colspace n (S m) (val a') w).
  { intros w (c & Hc). exists (fun k => if k <? m then c k else k0). intros i Hi. rewrite (Hc i Hi), !lcomb_cols_seq. cbn [sumn].
    destruct (Nat.ltb_spec m m); [lia|]. rewrite (sumn_ext m _ (fun k => kmul (if k <? m then c k else k0) (val a' i k))); [ring|].
    intros k Hk. destruct (Nat.ltb_spec k m); [|lia]. rewrite Va by assumption. reflexivity. }
  rewrite (solves_colspace n m (val a) b). split.
  - intros (c & Hc). apply (dimension_unique n (in_colspace n (S m) (val a'))); [exact D'|].
    apply (dimension_iff n (in_colspace n m (val a))); [|exact D]. intros w. split; [apply Sub|].
    intros (d & Hd). exists (fun k => kadd (d k) (kmul (d m) (c k))). intros i Hi. rewrite (Hd i Hi), !lcomb_cols_seq. cbn [sumn].
    rewrite (Vb i Hi), (Hc i Hi), lcomb_cols_seq, <- sumn_mul_l, <- sumn_add. apply sumn_ext. intros k Hk. rewrite (Va i k Hi Hk). ring.
  - intros ->. destruct (same_dimension n _ _ r Sub D D') as (vs & FV & Sp).
    assert (B : in_colspace n (S m) (val a') b).
    { exists (fun k => if k =? m then k1 else k0). intros i Hi. rewrite lcomb_cols_seq. rewrite (sumn_delta (S m) m).
      - rewrite Nat.eqb_refl, (Vb i Hi). ring.
      - lia.
      - intros k Hk N. destruct (Nat.eqb_spec k m); [congruence|ring]. }
    exact (span_trans n vs _ b FV (Sp b B)).
Qed.
End PropSolve.

(** ** The 3 x 4 matrix of C52_ex, of rank 2: the second column as right side, and (1, 0, 0) *)
Example C104_ex : mat_mul (fp ex_a_rref) (ex_mat 3 1 [(2,1);(1,1);(3,1)]%Z) = Ok (ex_mat 3 1 [(0,1);(1,1);(0,1)]%Z) /\
  mat_mul (fp ex_a_rref) (ex_mat 3 1 [(1,1);(0,1);(0,1)]%Z) = Ok (ex_mat 3 1 [(-3,1);(1,2);(1,1)]%Z) /\
  bound_variables RT (fb ex_a_rref) = Ok [0; 1] /\ okm rat_spec 3 1 (ex_mat 3 1 [(2,1);(1,1);(3,1)]%Z).
Proof. split; [reflexivity|]. split; [reflexivity|]. split; [reflexivity|]. split; [apply ex_mat_ok; reflexivity|split; reflexivity]. Qed.

Print Assumptions C104_solvable.
Print Assumptions C104_solution.
Print Assumptions C104_unique.
Print Assumptions C104_left_kernel.
Print Assumptions C104_rouche_capelli.
