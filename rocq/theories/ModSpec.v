(** * Linear algebra modulo an ideal

    For a Groebner basis, linear relations between polynomials modulo the ideal are linear relations between the coefficients of
    their normal forms; multiplication by f on the span of the standard monomials is a square matrix. *)
From Coq Require Import List Arith Lia Ring Field Setoid Morphisms.
From Verif Require Import LinSpec Base FieldIface MonoSpec PolySpec GroebnerSpec StdSpec LinFacts.
Import ListNotations.
Local Open Scope nat_scope.

Section Mod.
Context {K : MathField}.
Add Field Kf65 : (kth K).
Add Ring Pr65 : (@poly_ring K) (setoid (@peq_equiv K) (@poly_ring_ext K)).
Notation spoly := (spoly K).
Context (lt : mono -> mono -> Prop) (LW : mono_order_laws lt).
Notation LM := (is_lm lt).
Implicit Types (p : spoly) (m : mono).

Lemma wsum_ext c w (P Q : nat -> spoly) : (forall k, k < c -> peq (P k) (Q k)) -> peq (wsum c w P) (wsum c w Q).
Proof. intros H. apply peq_coeff. intros m. rewrite !coeff_wsum. apply sumn_ext. intros k Hk. rewrite (H k Hk). reflexivity. Qed.
Lemma wsum_mul c w (P : nat -> spoly) p : peq (wsum c w (fun k => pmul p (P k))) (pmul p (wsum c w P)).
Proof. induction c as [|c IH]; cbn [wsum]; [ring|]. rewrite IH. unfold pscale. rewrite !tmul_pmul. ring. Qed.
Lemma sumn_nonzero n (f : nat -> K) : sumn n f <> k0 -> exists k, k < n /\ f k <> k0.
Proof.
  induction n as [|n IH]; cbn [sumn]; intros N; [contradiction|]. destruct (kdec (f n) k0) as [Z|Z]; [|exists n; auto].
  destruct IH as (k & Hk & Nk); [intros Y; apply N; rewrite Y, Z; ring|]. exists k. auto.
Qed.

(** the remainders [r j] of [f j], with coefficients at the monomials [ms] *)
Section Relations.
Variables (G : list spoly) (n m : nat) (f r : nat -> spoly) (ms : nat -> mono).
Hypothesis GB : groebner lt G.
Hypothesis Rf : forall j, j < m -> in_ideal G (psub (f j) (r j)) /\ reduced lt G (r j).
Hypothesis Cov : forall j x, j < m -> coeff (r j) x <> k0 -> exists i, i < n /\ ms i = x.
Let A i j := coeff (r j) (ms i).
Lemma relations_kernel (w : nat -> K) : in_kernel n m A w <-> in_ideal G (wsum m w f).
Proof.
  assert (I : in_ideal G (psub (wsum m w f) (wsum m w r))) by (rewrite wsum_sub; apply wsum_ideal; intros; apply Rf; assumption).
  assert (E : forall i, mvec m A w i = coeff (wsum m w r) (ms i)).
  { intros i. rewrite coeff_wsum. unfold mvec. apply sumn_ext. intros j Hj. unfold A. ring. }
  split.
  - intros Z. assert (X : peq (wsum m w r) pzero).
    { apply peq_coeff. intros x. rewrite coeff_zero. destruct (kdec (coeff (wsum m w r) x) k0) as [Y|Y]; [exact Y|]. exfalso.
      pose proof Y as Y'. rewrite coeff_wsum in Y'. apply sumn_nonzero in Y' as (j & Hj & Nj).
      destruct (Cov j x Hj) as (i & Hi & <-); [intros Q; apply Nj; rewrite Q; ring|]. apply Y. rewrite <- E. apply Z. exact Hi. }
    assert (Y : peq (wsum m w f) (padd (psub (wsum m w f) (wsum m w r)) (wsum m w r))) by ring. rewrite Y. apply in_ideal_add; [exact I|]. rewrite X. apply in_ideal_zero.
  - intros J i Hi. rewrite E.
    assert (X : peq (wsum m w r) pzero).
    { apply (reduced_ideal_zero lt LW G); [exact GB| |].
      - assert (Y : peq (wsum m w r) (psub (wsum m w f) (psub (wsum m w f) (wsum m w r)))) by ring. rewrite Y. apply in_ideal_sub; assumption.
      - intros x Nx. rewrite coeff_wsum in Nx. apply sumn_nonzero in Nx as (j & Hj & Nj). apply (Rf j Hj). intros Q. apply Nj. rewrite Q. ring. }
    rewrite X. apply coeff_zero.
Qed.
End Relations.

(** multiplication by [f] *)
Section Multiplication.
Variables (n N : nat) (G : list spoly) (f : spoly) (r : nat -> spoly) (ms : nat -> mono).
Hypothesis GB : groebner lt G.
Hypothesis VG : forall g, In g G -> svars n g.
Hypothesis Std : forall x, std lt n G x <-> exists i, i < N /\ ms i = x.
Hypothesis Inj : forall i j, i < N -> j < N -> ms i = ms j -> i = j.
Hypothesis Vf : svars n f.
Hypothesis Rf : forall j, j < N -> in_ideal G (psub (pmul f (pterm k1 (ms j))) (r j)) /\ forall x, coeff (r j) x <> k0 -> std lt n G x.
Let A i j := coeff (r j) (ms i).
Let comb (w : nat -> K) : spoly := wsum N w (fun j => pterm k1 (ms j)).

Lemma sumn_pick (g : nat -> K) i : i < N -> (forall j, j < N -> j <> i -> g j = k0) -> sumn N g = g i.
Proof.
  clear. induction N as [|c IH]; intros Hi H; [lia|]. cbn [sumn]. destruct (Nat.eq_dec i c) as [->|Ni].
  - rewrite (sumn_ext c g (fun _ => k0)) by (intros j Hj; apply H; lia). assert (Z : sumn c (fun _ => @k0 K) = k0) by (clear; induction c as [|c IH]; cbn [sumn]; [reflexivity|rewrite IH; ring]).
    rewrite Z. ring.
  - rewrite IH by (try lia; intros; apply H; lia). rewrite (H c) by lia. ring.
Qed.
Lemma coeff_comb w i : i < N -> coeff (comb w) (ms i) = w i.
Proof.
  intros Hi. unfold comb. rewrite coeff_wsum. rewrite (sumn_pick _ i Hi).
  - rewrite coeff_pterm. destruct (mono_dec (ms i) (ms i)); [ring|contradiction].
  - intros j Hj Nj. rewrite coeff_pterm. destruct (mono_dec (ms j) (ms i)) as [E|_]; [apply Inj in E; auto; contradiction|ring].
Qed.
Lemma comb_std w x : coeff (comb w) x <> k0 -> std lt n G x.
Proof.
  intros Nx. unfold comb in Nx. rewrite coeff_wsum in Nx. apply sumn_nonzero in Nx as (j & Hj & Nj). rewrite coeff_pterm in Nj.
  destruct (mono_dec (ms j) x) as [<-|_]; [apply Std; eauto|exfalso; apply Nj; ring].
Qed.
Lemma std_comb p : (forall x, coeff p x <> k0 -> std lt n G x) -> peq p (comb (fun i => coeff p (ms i))).
Proof.
  intros H. apply peq_coeff. intros x. destruct (kdec (coeff p x) k0) as [Z|Z].
  - destruct (kdec (coeff (comb (fun i => coeff p (ms i))) x) k0) as [Y|Y]; [rewrite Z, Y; reflexivity|].
    destruct (proj1 (Std x) (comb_std _ _ Y)) as (i & Hi & <-). rewrite coeff_comb by exact Hi. reflexivity.
  - destruct (proj1 (Std x) (H x Z)) as (i & Hi & <-). rewrite coeff_comb by exact Hi. reflexivity.
Qed.
Lemma comb_ideal w : in_ideal G (comb w) -> forall i, i < N -> w i = k0.
Proof.
  intros I i Hi. rewrite <- (coeff_comb w i Hi). rewrite (std_independent lt LW n G (comb w) GB (comb_std w) I). apply coeff_zero.
Qed.
Lemma comb_nf p : svars n p -> exists w, in_ideal G (psub p (comb w)).
Proof.
  intros Vp. destruct (normal_form lt LW n G VG p Vp) as (q & I & S). exists (fun i => coeff q (ms i)). rewrite <- (std_comb q S). exact I.
Qed.
Lemma comb_vars w : svars n (comb w).
Proof. intros x Nx. apply (comb_std w x Nx). Qed.
(** the matrix of the multiplication *)
Lemma mult_comb w : in_ideal G (psub (pmul f (comb w)) (comb (mvec N A w))).
Proof.
  assert (E : peq (comb (mvec N A w)) (wsum N w r)).
  { symmetry. rewrite (std_comb (wsum N w r)).
    - unfold comb. apply peq_coeff. intros x. rewrite !coeff_wsum. apply sumn_ext. intros i Hi. f_equal. rewrite coeff_wsum. unfold mvec, A. apply sumn_ext. intros j Hj. ring.
    - intros x Nx. rewrite coeff_wsum in Nx. apply sumn_nonzero in Nx as (j & Hj & Nj). apply (Rf j Hj). intros Q. apply Nj. rewrite Q. ring. }
  rewrite E. unfold comb. rewrite <- wsum_mul. rewrite wsum_sub. apply wsum_ideal. intros j Hj. apply Rf. exact Hj.
Qed.
Lemma mult_kernel w : in_kernel N N A w <-> in_ideal G (pmul f (comb w)).
Proof.
  pose proof (mult_comb w) as M. split; intros H.
  - assert (E : peq (comb (mvec N A w)) pzero).
    { apply peq_coeff. intros x. rewrite coeff_zero. unfold comb. rewrite coeff_wsum. rewrite (sumn_ext N _ (fun _ => k0)) by (intros i Hi; rewrite (H i Hi); ring).
      clear. induction N as [|c IH]; cbn [sumn]; [reflexivity|rewrite IH; ring]. }
    rewrite E in M. assert (X : peq (pmul f (comb w)) (psub (pmul f (comb w)) pzero)) by ring. rewrite X. exact M.
  - unfold in_kernel. intros i Hi. apply (comb_ideal (mvec N A w)); [|exact Hi]. assert (X : peq (comb (mvec N A w)) (psub (pmul f (comb w)) (psub (pmul f (comb w)) (comb (mvec N A w))))) by ring.
    rewrite X. apply in_ideal_sub; assumption.
Qed.
Lemma mult_zero_divisor : (exists w, in_kernel N N A w /\ exists i, i < N /\ w i <> k0) <-> exists h, svars n h /\ ~ in_ideal G h /\ in_ideal G (pmul f h).
Proof.
  split.
  - intros (w & H & i & Hi & Nw). exists (comb w). split; [apply comb_vars|]. split; [|apply mult_kernel; exact H]. intros I. apply Nw. apply comb_ideal; assumption.
  - intros (h & Vh & Nh & I). destruct (comb_nf h Vh) as (w & Iw). exists w. split.
    + apply mult_kernel. assert (X : peq (pmul f (comb w)) (psub (pmul f h) (pmul f (psub h (comb w))))) by ring. rewrite X. apply in_ideal_sub; [exact I|]. apply in_ideal_mul. exact Iw.
    + assert (D : (exists i, i < N /\ w i <> k0) \/ forall i, i < N -> w i = k0).
      { clear. induction N as [|c IH]; [right; intros; lia|]. destruct IH as [(i & Hi & Q)|IH]; [left; exists i; auto|].
        destruct (kdec (w c) k0) as [Z|Z]; [right|left; exists c; auto]. intros i Hi. destruct (Nat.eq_dec i c) as [->|]; [exact Z|apply IH; lia]. }
      destruct D as [D|D]; [exact D|]. exfalso. apply Nh. assert (X : peq h (padd (psub h (comb w)) (comb w))) by ring. rewrite X. apply in_ideal_add; [exact Iw|].
      assert (Z : peq (comb w) pzero); [|rewrite Z; apply in_ideal_zero]. apply peq_coeff. intros x. rewrite coeff_zero. unfold comb. rewrite coeff_wsum.
      rewrite (sumn_ext N _ (fun _ => k0)) by (intros i Hi; rewrite (D i Hi); ring). clear. induction N as [|c IH]; cbn [sumn]; [reflexivity|rewrite IH; ring].
Qed.
Lemma mult_inverse : invertible N A -> exists h, svars n h /\ in_ideal G (psub (pmul f h) pone).
Proof.
  intros (B & AB & BA). destruct (comb_nf pone) as (w & Iw); [apply svars_pterm; apply mvars_one|].
    exists (comb (mvec N B w)). split; [apply comb_vars|].
    pose proof (mult_comb (mvec N B w)) as M.
    assert (E : peq (comb (mvec N A (mvec N B w))) (comb w)).
    { unfold comb. apply peq_coeff. intros x. rewrite !coeff_wsum. apply sumn_ext. intros i Hi. f_equal.
      rewrite <- mvec_mmul. transitivity (mvec N mid w i); [apply (mvec_ext N N); [exact AB|reflexivity|exact Hi]|apply mvec_id; exact Hi]. }
    rewrite E in M. assert (X : peq (psub (pmul f (comb (mvec N B w))) pone) (psub (psub (pmul f (comb (mvec N B w))) (comb w)) (psub pone (comb w)))) by ring.
    rewrite X. apply in_ideal_sub; assumption.
Qed.
Lemma inverse_injective h : in_ideal G (psub (pmul f h) pone) -> forall w, in_kernel N N A w -> forall i, i < N -> w i = k0.
Proof.
  intros I w Hw i Hi. apply (comb_ideal w); [|exact Hi]. apply mult_kernel in Hw.
    assert (X : peq (comb w) (psub (pmul h (pmul f (comb w))) (pmul (comb w) (psub (pmul f h) pone)))) by ring. rewrite X. apply in_ideal_sub; apply in_ideal_mul; assumption.
Qed.
End Multiplication.
End Mod.
