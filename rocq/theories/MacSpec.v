(** * Spaces of polynomials as row spaces

    The coefficients of finitely many polynomials, entered as the rows of a matrix whose columns belong to decreasing monomials:
    the leading monomials of their linear combinations are those of the pivot columns of an echelon form.  The part of an ideal
    in a set of monomials that respects homogeneous generators is spanned by the multiples of the generators in it. *)
From Coq Require Import List Arith Lia Ring Field Setoid Morphisms.
From Verif Require Import LinSpec RrefSpec Base FieldIface MonoSpec PolySpec GroebnerSpec StdSpec GradeSpec LinFacts ModSpec.
Import ListNotations.
Local Open Scope nat_scope.

Section Mac.
Context {K : MathField}.
Add Field Kf67 : (kth K).
Add Ring Pr67 : (@poly_ring K) (setoid (@peq_equiv K) (@poly_ring_ext K)).
Notation spoly := (spoly K).
Context (lt : mono -> mono -> Prop) (LW : mono_order_laws lt).
Notation LM := (is_lm lt).
Implicit Types (p : spoly) (x : mono).

(** linear combinations of the [P i], i < n *)
Definition spans (n : nat) (P : nat -> spoly) p : Prop := exists w, peq p (wsum n w P).
Global Instance spans_proper n P : Proper (peq ==> iff) (spans n P).
Proof. intros p q E. split; intros (w & H); exists w; rewrite <- H; [symmetry|]; exact E. Qed.
Lemma spans_zero n P : spans n P pzero.
Proof. exists (fun _ => k0). apply peq_coeff. intros x. rewrite coeff_wsum, coeff_zero. symmetry. apply sumn_zero'. intros; ring. Qed.
Lemma spans_add n P p q : spans n P p -> spans n P q -> spans n P (padd p q).
Proof.
  intros (w & H) (v & G). exists (fun i => kadd (w i) (v i)). rewrite H, G. apply peq_coeff. intros x. rewrite coeff_add, !coeff_wsum, <- sumn_add.
  apply sumn_ext. intros; ring.
Qed.
Lemma spans_row n P i c : i < n -> spans n P (pscale c (P i)).
Proof.
  intros Hi. exists (fun k => if Nat.eqb k i then c else k0). apply peq_coeff. intros x. rewrite coeff_wsum, (sumn_pick n _ i Hi).
  - rewrite Nat.eqb_refl. unfold pscale. rewrite <- (mmul_1_l x) at 1. rewrite coeff_tmul. reflexivity.
  - intros j Hj N. apply Nat.eqb_neq in N. rewrite N. ring.
Qed.

Section Rows.
Variables (n m : nat) (P : nat -> spoly) (ms : nat -> mono).
Hypothesis Dec : forall i j, i < j -> j < m -> lt (ms j) (ms i).
Hypothesis Cov : forall i x, i < n -> coeff (P i) x <> k0 -> exists j, j < m /\ ms j = x.
Let A i j := coeff (P i) (ms j).

Lemma ms_inj i j : i < m -> j < m -> ms i = ms j -> i = j.
Proof.
  intros Hi Hj E. destruct (Nat.lt_trichotomy i j) as [L|[L|L]]; [|exact L|]; exfalso.
  - pose proof (Dec i j L Hj) as D. rewrite E in D. exact (lt_irrefl lt LW _ D).
  - pose proof (Dec j i L Hi) as D. rewrite E in D. exact (lt_irrefl lt LW _ D).
Qed.
Lemma row_comb (w : nat -> K) j : lcomb (map (mrow A) (seq 0 n)) w j = sumn n (fun k => kmul (w k) (A k j)).
Proof.
  unfold lcomb. rewrite map_length, seq_length. apply sumn_ext. intros k Hk. f_equal.
  rewrite (nth_indep _ vzero (mrow A 0)) by (rewrite map_length, seq_length; exact Hk). rewrite map_nth, seq_nth by exact Hk. reflexivity.
Qed.
Lemma spans_rowspace p : spans n P p <-> (forall x, coeff p x <> k0 -> exists j, j < m /\ ms j = x) /\ in_rowspace n m A (fun j => coeff p (ms j)).
Proof.
  split.
  - intros (w & H). split.
    + intros x N. rewrite H, coeff_wsum in N. apply sumn_nonzero in N as (k & Hk & N). apply (Cov k x Hk). intros Z. apply N. rewrite Z. ring.
    + exists w. intros j Hj. rewrite row_comb, H, coeff_wsum. reflexivity.
  - intros (C & w & H). exists w. apply peq_coeff. intros x.
    assert (X : (exists j, j < m /\ ms j = x) -> coeff p x = coeff (wsum n w P) x).
    { intros (j & Hj & <-). rewrite (H j Hj), row_comb, coeff_wsum. reflexivity. }
    destruct (kdec (coeff p x) k0) as [Z|Z]; [|apply X; auto]. destruct (kdec (coeff (wsum n w P) x) k0) as [Y|Y]; [rewrite Z, Y; reflexivity|].
    apply X. rewrite coeff_wsum in Y. apply sumn_nonzero in Y as (k & Hk & N). apply (Cov k x Hk). intros Q. apply N. rewrite Q. ring.
Qed.

(** a row as a polynomial *)
Definition rowpoly (v : nat -> K) : spoly := wsum m v (fun j => pterm k1 (ms j)).
Lemma coeff_rowpoly v j : j < m -> coeff (rowpoly v) (ms j) = v j.
Proof.
  intros Hj. unfold rowpoly. rewrite coeff_wsum, (sumn_pick m _ j Hj).
  - rewrite coeff_pterm. destruct (mono_dec (ms j) (ms j)); [ring|contradiction].
  - intros i Hi Ni. rewrite coeff_pterm. destruct (mono_dec (ms i) (ms j)) as [E|_]; [apply ms_inj in E; auto; contradiction|ring].
Qed.
Lemma rowpoly_cov v x : coeff (rowpoly v) x <> k0 -> exists j, j < m /\ ms j = x.
Proof.
  intros N. unfold rowpoly in N. rewrite coeff_wsum in N. apply sumn_nonzero in N as (j & Hj & N). rewrite coeff_pterm in N.
  destruct (mono_dec (ms j) x) as [E|_]; [eauto|exfalso; apply N; ring].
Qed.

Variables (r : nat) (piv : nat -> nat) (B Q : nat -> nat -> K).
Hypothesis EB : ech n m r piv B.
Hypothesis IQ : invertible n Q.
Hypothesis QA : meq n m (LinSpec.mmul n Q A) B.

Lemma rowpoly_spans i : i < r -> spans n P (rowpoly (B i)).
Proof.
  intros Hi. apply spans_rowspace. split; [apply rowpoly_cov|]. destruct (ech_row_basis n m r piv A B Q EB IQ QA) as (_ & S & _).
  rewrite Forall_forall in S. assert (X : in_rowspace n m A (mrow B i)) by (apply S; apply in_map; apply in_seq; lia).
  destruct X as (c & H). exists c. intros j Hj. rewrite coeff_rowpoly by exact Hj. apply (H j Hj).
Qed.
Lemma first_lm p k : k < m -> coeff p (ms k) <> k0 -> (forall x, coeff p x <> k0 -> exists j, j < m /\ ms j = x) ->
  (forall j, j < k -> coeff p (ms j) = k0) -> LM p (ms k).
Proof.
  intros Hk N C Z. split; [exact N|]. intros x Nx. destruct (C x Nx) as (j & Hj & <-). destruct (Nat.lt_trichotomy k j) as [L|[<-|L]].
  - right. apply Dec; assumption.
  - left. reflexivity.
  - exfalso. apply Nx. apply Z. exact L.
Qed.
Lemma rowpoly_lm i : i < r -> LM (rowpoly (B i)) (ms (piv i)).
Proof.
  intros Hi. pose proof (ech_lt _ _ _ _ _ EB i Hi) as Hp. apply first_lm; [exact Hp| |apply rowpoly_cov|].
  - rewrite coeff_rowpoly by exact Hp. rewrite (ech_one _ _ _ _ _ EB i Hi). apply (F_1_neq_0 (kth K)).
  - intros j Hj. rewrite coeff_rowpoly by lia. apply (ech_left _ _ _ _ _ EB i j Hi Hj).
Qed.
Lemma least_nonzero (c : nat -> K) k : (forall i, i < k -> c i = k0) \/ exists i, i < k /\ c i <> k0 /\ forall j, j < i -> c j = k0.
Proof.
  induction k as [|k [IH|(i & Hi & N & Z)]]; [left; intros; lia| |right; exists i; auto].
  destruct (kdec (c k) k0) as [Z|N]; [left; intros i Hi; destruct (Nat.eq_dec i k) as [->|X]; [exact Z|apply IH; lia]|right; exists k; auto].
Qed.
Lemma spans_lm p x : spans n P p -> LM p x -> exists i, i < r /\ x = ms (piv i).
Proof.
  intros S L. apply spans_rowspace in S as [C R]. destruct (ech_row_basis n m r piv A B Q EB IQ QA) as (_ & _ & T).
  destruct (T _ R) as (c & H). assert (H' : forall j, j < m -> coeff p (ms j) = sumn r (fun k => kmul (c k) (B k j))).
  { intros j Hj. rewrite (H j Hj). unfold lcomb. rewrite map_length, seq_length. apply sumn_ext. intros k Hk. f_equal.
    rewrite (nth_indep _ vzero (mrow B 0)) by (rewrite map_length, seq_length; exact Hk). rewrite map_nth, seq_nth by exact Hk. reflexivity. }
  destruct (least_nonzero c r) as [Z|(i & Hi & N & Z)].
  - exfalso. destruct L as [N _]. destruct (C x N) as (j & Hj & <-). apply N. rewrite (H' j Hj). apply sumn_zero'. intros k Hk. rewrite (Z k Hk). ring.
  - exists i. split; [exact Hi|]. apply (is_lm_unique lt LW p); [exact L|]. pose proof (ech_lt _ _ _ _ _ EB i Hi) as Hp. apply first_lm; [exact Hp| |exact C|].
    + rewrite (H' _ Hp), (sumn_pick r _ i Hi).
      * rewrite (ech_one _ _ _ _ _ EB i Hi). intros X. apply N. rewrite <- X. ring.
      * intros k Hk Nk. destruct (Nat.lt_trichotomy k i) as [Lk|[E|Lk]]; [rewrite (Z k Lk); ring|contradiction|].
        rewrite (ech_left _ _ _ _ _ EB k (piv i) Hk (ech_inc _ _ _ _ _ EB i k Lk Hk)). ring.
    + intros j Hj. rewrite (H' j) by lia. apply sumn_zero'. intros k Hk. destruct (Nat.lt_ge_cases k i) as [Lk|Lk]; [rewrite (Z k Lk); ring|].
      assert (Y : B k j = k0).
      { apply (ech_left _ _ _ _ _ EB k j Hk). destruct (Nat.eq_dec i k) as [<-|Ne]; [exact Hj|]. pose proof (ech_inc _ _ _ _ _ EB i k ltac:(lia) Hk). lia. }
      rewrite Y. ring.
Qed.
End Rows.

(** ** The part of an ideal in a set of monomials *)
Section Part.
Variables (G : list spoly) (n : nat) (P : nat -> spoly) (S : mono -> bool).
(** the multiples of a generator by a monomial lie in the set or miss it *)
Hypothesis Hom : forall g a b b', In g G -> coeff g b <> k0 -> coeff g b' <> k0 -> S (mmul a b) = S (mmul a b').
Hypothesis Row : forall g a b, In g G -> coeff g b <> k0 -> S (mmul a b) = true -> exists i, i < n /\ peq (P i) (tmul k1 a g).

Lemma part_term c a g : In g G -> spans n P (pfilter S (tmul c a g)).
Proof.
  intros I. destruct (zero_or_lm lt LW g) as [Z|(b & Lb)].
  - assert (E : peq (tmul c a g) pzero) by (rewrite Z; reflexivity). rewrite E. apply spans_zero.
  - destruct Lb as [N _]. destruct (S (mmul a b)) eqn:Sb.
    + rewrite pfilter_all.
      * destruct (Row g a b I N Sb) as (i & Hi & E). assert (X : peq (tmul c a g) (pscale c (P i))).
        { rewrite E. unfold pscale. rewrite !tmul_pmul. apply peq_coeff. intros x. rewrite <- !tmul_pmul.
          destruct (mdiv_dec a x) as [D|D].
          - apply mdiv_iff in D as (y & ->). rewrite coeff_tmul. rewrite <- (mmul_1_l (mmul a y)). rewrite coeff_tmul, coeff_tmul. ring.
          - rewrite coeff_tmul_nd by exact D. rewrite <- (mmul_1_l x). rewrite coeff_tmul, coeff_tmul_nd by exact D. ring. }
        rewrite X. apply spans_row. exact Hi.
      * intros x Nx. apply coeff_tmul_inv in Nx as (_ & b' & -> & N'). rewrite (Hom g a b' b I N' N). exact Sb.
    + rewrite pfilter_none; [apply spans_zero|]. intros x Nx. apply coeff_tmul_inv in Nx as (_ & b' & -> & N'). rewrite (Hom g a b' b I N' N). exact Sb.
Qed.
Lemma part_mul q g : In g G -> spans n P (pfilter S (pmul q g)).
Proof.
  intros I. induction q as [|[c a] q IH]; [apply spans_zero|]. assert (E : peq (pmul ((c, a) :: q) g) (padd (tmul c a g) (pmul q g))) by reflexivity.
  rewrite E, pfilter_add. apply spans_add; [apply part_term; exact I|exact IH].
Qed.
Lemma part_lincomb qs gs : incl gs G -> spans n P (pfilter S (lincomb qs gs)).
Proof.
  revert gs. induction qs as [|q qs IH]; intros [|g gs] H; try apply spans_zero. cbn [lincomb]. rewrite pfilter_add.
  apply spans_add; [apply part_mul; apply H; left; reflexivity|apply IH; intros y Iy; apply H; right; exact Iy].
Qed.
Lemma part_ideal p : in_ideal G p -> (forall x, coeff p x <> k0 -> S x = true) -> spans n P p.
Proof.
  intros (qs & _ & E) H. rewrite <- (pfilter_all S p H). rewrite E. apply part_lincomb. apply incl_refl.
Qed.
End Part.
End Mac.
