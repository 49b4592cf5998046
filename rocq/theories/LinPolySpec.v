(** * Polynomials of degree at most one.

    A family of such polynomials in reduced row echelon form is a reduced Groebner basis; nothing here mentions the model.
    Column j < m of a vector is the coefficient of the variable x_(var j), column m the constant term. *)
From Coq Require Import List Arith Lia Ring Field Setoid Morphisms.
From Verif Require Import Base BaseLemmas FieldIface LinSpec MonoSpec PolySpec GroebnerSpec IdealSpec SubstSpec MapSpec.
Import ListNotations.
Local Open Scope nat_scope.

Lemma nodup_map_inj {A B} (f : A -> B) l : NoDup l -> (forall x y, In x l -> In y l -> f x = f y -> x = y) -> NoDup (map f l).
Proof.
  induction l as [|a l IH]; intros N H; cbn [map]; constructor; inversion N; subst.
  - intros I. apply in_map_iff in I as (y & E & I). apply H in E; [subst; contradiction|right; exact I|left; reflexivity].
  - apply IH; [assumption|]. intros x y Hx Hy. apply H; right; assumption.
Qed.

Section LinPoly.
Context {K : MathField}.
Add Field Kf41 : (kth K).
Add Ring Pr41 : (@poly_ring K) (setoid (@peq_equiv K) (@poly_ring_ext K)).
Notation spoly := (spoly K).
Notation vec := (nat -> K).
Notation fmat := (nat -> nat -> K).
Context (var : nat -> nat) (m : nat).

(** the monomial of a column *)
Definition col (j : nat) : mono := if j <? m then mvar (var j) 1 else mone.
Definition linpoly (v : vec) : spoly := map (fun j => (v j, col j)) (seq 0 (S m)).

Context (lt : mono -> mono -> Prop) (L : mono_order_laws lt).
(** the variables are listed in decreasing order *)
Definition decreasing : Prop := forall i j, i < j -> j < m -> lt (mvar (var j) 1) (mvar (var i) 1).
Context (D : decreasing).
Notation LM := (is_lm lt).
Notation mle := (mle lt).

Lemma mvar_not_one i : mvar i 1 <> mone.
Proof. intros E. assert (X : mexp (mvar i 1) i = mexp mone i) by (rewrite E; reflexivity). rewrite mvar_exp, mone_exp, Nat.eqb_refl in X. discriminate. Qed.
Lemma col_lt i j : i < j -> j <= m -> lt (col j) (col i).
Proof.
  intros A B. unfold col. destruct (Nat.ltb_spec i m); [|lia]. destruct (Nat.ltb_spec j m); [apply D; assumption|].
  apply (lt_one lt L). apply mvar_not_one.
Qed.
Lemma col_inj i j : i <= m -> j <= m -> col i = col j -> i = j.
Proof.
  intros A B E. destruct (Nat.lt_trichotomy i j) as [C|[C|C]]; [|exact C|]; exfalso.
  - apply (lt_irrefl lt L (col j)). pose proof (col_lt i j C B) as X. rewrite E in X. exact X.
  - apply (lt_irrefl lt L (col j)). pose proof (col_lt j i C A) as X. rewrite E in X. exact X.
Qed.
Lemma linpoly_nodup v : NoDup (map snd (linpoly v)).
Proof.
  unfold linpoly. rewrite map_map. apply nodup_map_inj; [apply seq_NoDup|]. intros i j Hi Hj. apply in_seq in Hi, Hj. apply col_inj; lia.
Qed.
Lemma coeff_col v j : j <= m -> coeff (linpoly v) (col j) = v j.
Proof.
  intros H. apply coeff_nodup; [apply linpoly_nodup|]. unfold linpoly. apply in_map_iff. exists j. split; [reflexivity|apply in_seq; lia].
Qed.
Lemma coeff_linpoly v a : coeff (linpoly v) a <> k0 -> exists j, j <= m /\ a = col j /\ v j <> k0.
Proof.
  intros N. pose proof (coeff_in _ _ N) as I. unfold linpoly in I. rewrite map_map in I. apply in_map_iff in I as (j & E & I). apply in_seq in I.
  exists j. cbn [snd] in E. subst a. rewrite coeff_col in N by lia. split; [lia|]. split; [reflexivity|exact N].
Qed.
Lemma linpoly_coeff_eq (p : spoly) v : (forall j, j <= m -> coeff p (col j) = v j) -> (forall a, coeff p a <> k0 -> exists j, j <= m /\ a = col j) -> peq p (linpoly v).
Proof.
  intros A B. apply peq_coeff. intros a. destruct (kdec (coeff p a) k0) as [Z|N].
  - destruct (kdec (coeff (linpoly v) a) k0) as [Z'|N']; [congruence|]. destruct (coeff_linpoly v a N') as (j & Hj & -> & Nv).
    rewrite A in Z by exact Hj. congruence.
  - destruct (B a N) as (j & Hj & ->). rewrite A by exact Hj. rewrite coeff_col by exact Hj. reflexivity.
Qed.
Lemma linpoly_ext v w : (forall j, j <= m -> v j = w j) -> peq (linpoly v) (linpoly w).
Proof.
  intros H. replace (linpoly w) with (linpoly v); [reflexivity|]. unfold linpoly. apply map_ext_in. intros j Hj. apply in_seq in Hj. rewrite H by lia. reflexivity.
Qed.
Lemma linpoly_add v w c : peq (linpoly (fun j => kadd (v j) (kmul c (w j)))) (padd (linpoly v) (pscale c (linpoly w))).
Proof.
  symmetry. apply linpoly_coeff_eq.
  - intros j Hj. rewrite coeff_add, coeff_scale, !coeff_col by exact Hj. reflexivity.
  - intros a N. rewrite coeff_add, coeff_scale in N. destruct (kdec (coeff (linpoly v) a) k0) as [Z|X].
    + destruct (kdec (coeff (linpoly w) a) k0) as [Z'|X']; [exfalso; apply N; rewrite Z, Z'; ring|].
      destruct (coeff_linpoly w a X') as (j & Hj & -> & _). eauto.
    + destruct (coeff_linpoly v a X) as (j & Hj & -> & _). eauto.
Qed.
Lemma linpoly_zero v : (forall j, j <= m -> v j = k0) -> peq (linpoly v) pzero.
Proof.
  intros H. apply peq_coeff. intros a. rewrite coeff_zero. destruct (kdec (coeff (linpoly v) a) k0) as [Z|N]; [exact Z|].
  destruct (coeff_linpoly v a N) as (j & Hj & _ & Nv). exfalso. apply Nv. apply H. exact Hj.
Qed.
(** linear combinations stay in the ideal *)
Lemma linpoly_comb (G : list spoly) n (w : fmat) (c : vec) : (forall k, k < n -> in_ideal G (linpoly (w k))) ->
  in_ideal G (linpoly (fun j => sumn n (fun k => kmul (c k) (w k j)))).
Proof.
  induction n as [|n IH]; intros H.
  - rewrite linpoly_zero by (intros; reflexivity). apply in_ideal_zero.
  - rewrite (linpoly_ext _ (fun j => kadd (sumn n (fun k => kmul (c k) (w k j))) (kmul (c n) (w n j)))) by (intros; reflexivity).
    rewrite linpoly_add. apply in_ideal_add; [apply IH; intros; apply H; lia|]. apply in_ideal_tmul. apply H. lia.
Qed.

(** ** Substitutions that do not raise monomials *)
Lemma mle_mul2 a a' b b' : mle a a' -> mle b b' -> mle (mmul a b) (mmul a' b').
Proof.
  intros A B. apply (mle_trans lt L _ (mmul a b')); [apply (mle_mul lt L); exact B|].
  rewrite (mmul_comm a b'), (mmul_comm a' b'). apply (mle_mul lt L). exact A.
Qed.
Lemma mvar_S i e : mvar i (S e) = MonoSpec.mmul (mvar i 1) (mvar i e).
Proof. apply mono_ext. intros n. rewrite mmul_exp, !mvar_exp. destruct (Nat.eqb n i); lia. Qed.
Lemma mvar_0 i : mvar i 0 = mone.
Proof. apply mono_ext. intros n. rewrite mone_exp, mvar_exp. destruct (Nat.eqb n i); reflexivity. Qed.
Section Lower.
Context (s : nat -> spoly) (H : forall i a, coeff (s i) a <> k0 -> mle a (mvar i 1)).
Lemma one_coeff a : coeff (@pone K) a <> k0 -> a = mone.
Proof. change (@pone K) with (@pterm K k1 mone). rewrite coeff_pterm. destruct (mono_dec mone a); congruence. Qed.
Lemma pow_lower i e a : coeff (ppow (s i) e) a <> k0 -> mle a (mvar i e).
Proof.
  revert a. induction e as [|e IH]; intros a N; cbn [ppow] in N.
  - apply one_coeff in N. subst a. rewrite mvar_0. left. reflexivity.
  - apply coeff_mul_inv in N as (x & y & -> & Nx & Ny). rewrite mvar_S. apply mle_mul2; auto.
Qed.
Lemma mmap_up_lower x n a : coeff (mmap_up s x n) a <> k0 -> mle a (canon (firstn n (mlist x))).
Proof.
  revert a. induction n as [|n IH]; intros a N; cbn [mmap_up] in N.
  - apply one_coeff in N. subst a. left. reflexivity.
  - apply coeff_mul_inv in N as (y & z & -> & Ny & Nz).
    replace (canon (firstn (S n) (mlist x))) with (MonoSpec.mmul (canon (firstn n (mlist x))) (mvar n (mexp x n))).
    + apply mle_mul2; [apply IH; exact Ny|apply pow_lower; exact Nz].
    + apply mono_ext. intros j. rewrite mmul_exp, !canon_exp, mvar_exp. unfold mexp, expo. rewrite !nth_firstn_0.
      destruct (Nat.ltb_spec j n), (Nat.ltb_spec j (S n)), (Nat.eqb_spec j n); subst; lia.
Qed.
Lemma mmap_lower x a : coeff (mmap s x) a <> k0 -> mle a x.
Proof. intros N. apply mmap_up_lower in N. rewrite firstn_all, canon_mlist in N. exact N. Qed.
(** a leading monomial whose variables are fixed survives *)
Lemma psubst_lead (f : spoly) x : LM f x -> (forall i, mexp x i <> 0 -> peq (s i) (pvar i)) -> coeff (psubst s f) x = coeff f x.
Proof.
  intros [N M] Fx. destruct (pnorm f) as (f' & E & Nf). unfold coeff at 1. rewrite ev_psubst. rewrite <- (E (fun a => ev (mmap s a) (delta x))).
  unfold coeff at 1. rewrite <- (E (delta x)). apply ev_ext_in. intros a I. apply in_map_iff in I as ([c a'] & <- & I). cbn [snd]. apply Nf in I as [C Z].
  fold (coeff (mmap s a') x). destruct (mono_dec a' x) as [->|Na].
  - rewrite delta_same. assert (X : peq (mmap s x) (pterm k1 x)).
    { rewrite <- mmap_pvar. apply mmap_up_ext. intros i _ Ei. apply Fx. exact Ei. }
    rewrite X, coeff_pterm. destruct (mono_dec x x); congruence.
  - rewrite delta_diff by exact Na. destruct (kdec (coeff (mmap s a') x) k0) as [|Y]; [assumption|]. exfalso.
    apply mmap_lower in Y. apply Na. apply (mle_antisym lt L); [apply M; congruence|exact Y].
Qed.
End Lower.

(** ** Reduced row echelon form *)
Section Rref.
Context (n r : nat) (piv : nat -> nat) (b : fmat) (R : rref n (S m) r piv b) (NC : forall i, i < r -> piv i <> m).
Definition linrows : list spoly := map (fun i => linpoly (b i)) (seq 0 r).

Lemma piv_lt i : i < r -> piv i < m.
Proof. intros H. pose proof (ech_lt _ _ _ _ _ (proj1 R) i H). specialize (NC i H). lia. Qed.
Lemma piv_entry i k : i < r -> k < r -> b i (piv k) = if i =? k then k1 else k0.
Proof.
  intros Hi Hk. destruct (Nat.eqb_spec i k) as [->|N]; [apply (ech_one _ _ _ _ _ (proj1 R) k Hk)|].
  destruct (Nat.lt_ge_cases i k) as [C|C]; [apply (proj2 R); assumption|].
  apply (ech_left _ _ _ _ _ (proj1 R) i _ Hi). apply (ech_inc _ _ _ _ _ (proj1 R)); lia.
Qed.
Lemma row_lm i : i < r -> LM (linpoly (b i)) (mvar (var (piv i)) 1).
Proof.
  intros Hi. pose proof (piv_lt i Hi) as P. replace (mvar (var (piv i)) 1) with (col (piv i)) by (unfold col; destruct (Nat.ltb_spec (piv i) m); [reflexivity|lia]).
  split.
  - rewrite coeff_col by lia. rewrite (ech_one _ _ _ _ _ (proj1 R) i Hi). apply (F_1_neq_0 (kth K)).
  - intros a N. apply coeff_linpoly in N as (j & Hj & -> & Nj). destruct (Nat.lt_trichotomy j (piv i)) as [C|[->|C]].
    + exfalso. apply Nj. apply (ech_left _ _ _ _ _ (proj1 R) i j Hi C).
    + left. reflexivity.
    + right. apply col_lt; assumption.
Qed.
Lemma var_inj i j : i < m -> j < m -> var i = var j -> i = j.
Proof.
  intros Hi Hj E. apply col_inj; try lia. unfold col. destruct (Nat.ltb_spec i m), (Nat.ltb_spec j m); try lia. rewrite E. reflexivity.
Qed.
(** a pivot variable divides no monomial of another row *)
Lemma piv_div i k a : i < r -> k < r -> i <> k -> coeff (linpoly (b i)) a <> k0 -> ~ mdiv (mvar (var (piv k)) 1) a.
Proof.
  intros Hi Hk N C X. apply coeff_linpoly in C as (j & Hj & -> & Nj). specialize (X (var (piv k))). rewrite mvar_exp, Nat.eqb_refl in X.
  unfold col in X. destruct (Nat.ltb_spec j m) as [Y|Y]; [|rewrite mone_exp in X; lia]. rewrite mvar_exp in X.
  destruct (Nat.eqb_spec (var (piv k)) (var j)) as [E|E]; [|lia]. apply var_inj in E; [|apply piv_lt; exact Hk|exact Y]. subst j.
  apply Nj. rewrite piv_entry by assumption. destruct (Nat.eqb_spec i k); [contradiction|reflexivity].
Qed.

(** pivot variables are replaced by the rest of their row *)
Definition psol (x : nat) : spoly :=
  match find (fun i => var (piv i) =? x) (seq 0 r) with Some i => psub (pvar x) (linpoly (b i)) | None => pvar x end.
Lemma psol_piv i : i < r -> psol (var (piv i)) = psub (pvar (var (piv i))) (linpoly (b i)).
Proof.
  intros Hi. unfold psol. destruct (find (fun k => var (piv k) =? var (piv i)) (seq 0 r)) as [k|] eqn:E.
  - apply find_some in E as [I E]. apply in_seq in I. apply Nat.eqb_eq in E. apply var_inj in E; [|apply piv_lt; lia|apply piv_lt; exact Hi].
    assert (k = i); [|subst; reflexivity]. destruct (Nat.lt_trichotomy k i) as [C|[C|C]]; [|exact C|]; exfalso.
    + pose proof (ech_inc _ _ _ _ _ (proj1 R) k i C Hi). lia.
    + pose proof (ech_inc _ _ _ _ _ (proj1 R) i k C). lia.
  - exfalso. assert (X : (var (piv i) =? var (piv i)) = false) by (apply (find_none _ _ E i); apply in_seq; lia).
    rewrite Nat.eqb_refl in X. discriminate.
Qed.
Lemma psol_free x : (forall i, i < r -> var (piv i) <> x) -> psol x = pvar x.
Proof.
  intros H. unfold psol. destruct (find (fun k => var (piv k) =? x) (seq 0 r)) as [k|] eqn:E; [|reflexivity].
  apply find_some in E as [I E]. apply in_seq in I. apply Nat.eqb_eq in E. exfalso. apply (H k); [lia|exact E].
Qed.
Lemma psol_lower x a : coeff (psol x) a <> k0 -> mle a (mvar x 1).
Proof.
  destruct (find (fun i => var (piv i) =? x) (seq 0 r)) as [i|] eqn:E.
  - apply find_some in E as [I E]. apply in_seq in I. apply Nat.eqb_eq in E. subst x. rewrite psol_piv by lia. intros N. rewrite coeff_sub in N.
    destruct (kdec (coeff (pvar (K:=K) (var (piv i))) a) k0) as [Z|Z].
    + apply (row_lm i); [lia|]. intros Q. apply N. rewrite Z, Q. ring.
    + left. unfold pvar in Z. rewrite coeff_pterm in Z. destruct (mono_dec (mvar (var (piv i)) 1) a); [congruence|contradiction].
  - rewrite psol_free.
    + unfold pvar. rewrite coeff_pterm. destruct (mono_dec (mvar x 1) a); [intros _; left; congruence|congruence].
    + intros i Hi Q. assert (X : (var (piv i) =? x) = false) by (apply (find_none _ _ E i); apply in_seq; lia).
      apply Nat.eqb_neq in X. contradiction.
Qed.
Lemma psol_row i : i < r -> peq (psubst psol (linpoly (b i))) pzero.
Proof.
  intros Hi. set (x := var (piv i)). set (q := linpoly (b i)).
  assert (E : peq q (padd (pvar x) (psub q (pvar x)))) by ring.
  assert (Fx : peq (psubst psol (psub q (pvar x))) (psub q (pvar x))).
  { apply psubst_fix. intros a y C Y. rewrite psol_free; [reflexivity|]. intros k Hk Q. subst y. rewrite coeff_sub in C.
    destruct (mono_dec a (mvar x 1)) as [->|Na].
    - apply C. unfold pvar. rewrite coeff_pterm. destruct (mono_dec (mvar x 1) (mvar x 1)); [|congruence].
      assert (X : coeff q (mvar x 1) = k1).
      { unfold q, x. pose proof (piv_lt i Hi). replace (mvar (var (piv i)) 1) with (col (piv i)) by (unfold col; destruct (Nat.ltb_spec (piv i) m); [reflexivity|lia]).
        rewrite coeff_col by lia. apply (ech_one _ _ _ _ _ (proj1 R) i Hi). }
      rewrite X. ring.
    - assert (Cq : coeff q a <> k0).
      { intros Z. apply C. rewrite Z. unfold pvar. rewrite coeff_pterm. destruct (mono_dec (mvar x 1) a); [congruence|ring]. }
      destruct (Nat.eq_dec i k) as [->|N].
      + apply coeff_linpoly in Cq as (j & Hj & -> & Nj). unfold col in *. destruct (Nat.ltb_spec j m) as [Z|Z]; [|rewrite mone_exp in Y; lia].
        rewrite mvar_exp in Y. destruct (Nat.eqb_spec (var (piv k)) (var j)) as [Q|Q]; [|congruence]. apply Na. unfold x. rewrite Q. reflexivity.
      + apply (piv_div i k a Hi Hk N Cq). intros y. rewrite mvar_exp. destruct (Nat.eqb_spec y (var (piv k))) as [->|]; lia. }
  rewrite E, psubst_add, psubst_var, Fx. unfold x. rewrite psol_piv by exact Hi. unfold q. ring.
Qed.

Theorem linrows_groebner : groebner lt linrows.
Proof.
  intros f x I Lf.
  destruct (Exists_dec (fun i => mexp x (var (piv i)) <> 0) (seq 0 r)) as [X|X].
  { intros i. destruct (Nat.eq_dec (mexp x (var (piv i))) 0); [right; tauto|left; assumption]. }
  - apply Exists_exists in X as (i & Hi & X). apply in_seq in Hi. exists (linpoly (b i)), (mvar (var (piv i)) 1). split; [|split].
    + unfold linrows. apply in_map_iff. exists i. split; [reflexivity|apply in_seq; lia].
    + apply row_lm. lia.
    + intros y. rewrite mvar_exp. destruct (Nat.eqb_spec y (var (piv i))) as [->|]; lia.
  - exfalso. assert (Z : peq (psubst psol f) pzero).
    { apply (psubst_ideal psol linrows f); [|exact I]. intros g Ig. unfold linrows in Ig. apply in_map_iff in Ig as (i & <- & Hi). apply in_seq in Hi.
      apply psol_row. lia. }
    apply (proj1 Lf). rewrite <- (psubst_lead psol psol_lower f x Lf).
    + rewrite Z. apply coeff_zero.
    + intros y Y. rewrite psol_free; [reflexivity|]. intros i Hi Q. apply X. apply Exists_exists. exists i. split; [apply in_seq; lia|]. rewrite Q. exact Y.
Qed.
Theorem linrows_inter_reduced : inter_reduced lt linrows.
Proof.
  split.
  - intros g Ig Z. unfold linrows in Ig. apply in_map_iff in Ig as (i & <- & Hi). apply in_seq in Hi. destruct (row_lm i) as [N _]; [lia|].
    apply N. rewrite Z. apply coeff_zero.
  - intros i j gi gj l a N Ei Ej Lj C. unfold linrows in Ei, Ej. rewrite nth_error_map in Ei, Ej.
    destruct (nth_error (seq 0 r) i) as [i'|] eqn:Xi; [|discriminate]. destruct (nth_error (seq 0 r) j) as [j'|] eqn:Xj; [|discriminate].
    injection Ei as <-. injection Ej as <-.
    assert (A : i < r) by (rewrite <- (seq_length r 0); apply nth_error_Some; congruence).
    assert (B : j < r) by (rewrite <- (seq_length r 0); apply nth_error_Some; congruence).
    apply (nth_error_nth (seq 0 r) i 0) in Xi. apply (nth_error_nth (seq 0 r) j 0) in Xj. rewrite seq_nth in Xi, Xj by assumption.
    cbn in Xi, Xj. subst i' j'. rewrite (is_lm_unique lt L _ _ _ Lj (row_lm j B)). apply (piv_div i j a A B N C).
Qed.
End Rref.
End LinPoly.
