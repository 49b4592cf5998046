(** * Two polynomials in one variable: the space of the u f + v g

    For f of degree m and g of degree n, the polynomials u f + v g with deg u < n and deg v < m have as leading monomials the
    powers x^e with k <= e < m + n, where k is the degree of a greatest common divisor. *)
From Coq Require Import List Arith Lia Ring Field Setoid Morphisms.
From Verif Require Import LinSpec RrefSpec Base FieldIface MonoSpec PolySpec GroebnerSpec DivSpec StdSpec GradeSpec IdealSpec LinPolySpec ModSpec MacSpec.
Import ListNotations.
Local Open Scope nat_scope.

Section Syl.
Context {K : MathField}.
Add Field Kf69 : (kth K).
Add Ring Pr69 : (@poly_ring K) (setoid (@peq_equiv K) (@poly_ring_ext K)).
Notation spoly := (spoly K).
Context (lt : mono -> mono -> Prop) (LW : mono_order_laws lt).
Notation LM := (is_lm lt).
Notation X := (mvar 0).
Implicit Types (p q f g h : spoly) (x : mono).

(** ** Cofactors in the same variables *)
Definition inv (n : nat) x : bool := length (mlist x) <=? n.
Lemma inv_true n x : inv n x = true <-> mvars n x.
Proof. unfold inv. rewrite Nat.leb_le. symmetry. apply mvars_iff. Qed.
Lemma restrict_mul n q g : svars n g -> peq (pfilter (inv n) (pmul q g)) (pmul (pfilter (inv n) q) g).
Proof.
  intros V. induction q as [|[c a] q IH]; [reflexivity|].
  assert (E : peq (pmul ((c, a) :: q) g) (padd (tmul c a g) (pmul q g))) by reflexivity. rewrite E, pfilter_add, IH.
  unfold pfilter at 3. cbn [filter snd]. destruct (inv n a) eqn:I.
  - apply inv_true in I. rewrite (pfilter_all (inv n) (tmul c a g)); [reflexivity|]. intros m N. apply inv_true. apply coeff_tmul_inv in N as (_ & b & -> & Nb).
    apply mvars_mul. split; [exact I|apply V; exact Nb].
  - rewrite (pfilter_none (inv n) (tmul c a g)); [fold (pfilter (inv n) q); ring|]. intros m N. apply coeff_tmul_inv in N as (_ & b & -> & Nb).
    destruct (inv n (mmul a b)) eqn:J; [|reflexivity]. apply inv_true in J. apply mvars_mul in J as [J _]. apply inv_true in J. congruence.
Qed.
Lemma restrict_vars n q : svars n (pfilter (inv n) q).
Proof. intros m N. rewrite coeff_pfilter in N. destruct (inv n m) eqn:I; [apply inv_true; exact I|contradiction N; reflexivity]. Qed.
Lemma restrict_id n p : svars n p -> peq (pfilter (inv n) p) p.
Proof. intros V. apply pfilter_all. intros m N. apply inv_true. apply V. exact N. Qed.
Lemma factor_vars n p q g : svars n p -> svars n g -> peq p (pmul q g) -> exists q', svars n q' /\ peq p (pmul q' g).
Proof.
  intros Vp Vg E. exists (pfilter (inv n) q). split; [apply restrict_vars|]. rewrite <- (restrict_mul n q g Vg), <- E. symmetry. apply restrict_id. exact Vp.
Qed.
Lemma bezout_vars n p u v f g : svars n p -> svars n f -> svars n g -> peq p (padd (pmul u f) (pmul v g)) ->
  exists u' v', svars n u' /\ svars n v' /\ peq p (padd (pmul u' f) (pmul v' g)).
Proof.
  intros Vp Vf Vg E. exists (pfilter (inv n) u), (pfilter (inv n) v). split; [apply restrict_vars|]. split; [apply restrict_vars|].
  rewrite <- (restrict_mul n u f Vf), <- (restrict_mul n v g Vg), <- pfilter_add, <- E. symmetry. apply restrict_id. exact Vp.
Qed.

(** ** One variable *)
Lemma uni x : mvars 1 x -> x = X (mexp x 0).
Proof. intros V. apply mono_ext. intros i. rewrite mvar_exp. destruct (Nat.eqb_spec i 0) as [->|N]; [reflexivity|apply V; lia]. Qed.
Lemma X_mul i j : mmul (X i) (X j) = X (i + j).
Proof. apply mono_ext. intros k. rewrite mmul_exp, !mvar_exp. destruct (Nat.eqb k 0); lia. Qed.
Lemma X_exp i : mexp (X i) 0 = i.
Proof. rewrite mvar_exp. reflexivity. Qed.
Lemma X_vars i : mvars 1 (X i).
Proof. apply mvar_vars. lia. Qed.
Lemma X_lt i j : i < j -> lt (X i) (X j).
Proof.
  intros H. replace (X j) with (mmul (X i) (X (j - i))) by (rewrite X_mul; f_equal; lia). rewrite <- (mmul_1_r (X i)) at 1. apply (lt_mul lt LW). apply (lt_one lt LW).
  intros E. apply (f_equal (fun x => mexp x 0)) in E. rewrite X_exp, mone_exp in E. lia.
Qed.
Lemma X_le i j : mle lt (X i) (X j) -> i <= j.
Proof. intros H. destruct (Nat.le_gt_cases i j) as [L|L]; [exact L|]. exfalso. apply (mle_not_lt lt LW _ _ H). apply X_lt. exact L. Qed.
Lemma lm_bound p d x : svars 1 p -> LM p (X d) -> coeff p x <> k0 -> mexp x 0 <= d.
Proof. intros V [_ L] N. specialize (L x N). rewrite (uni x (V x N)) in L. apply X_le. exact L. Qed.
Lemma uni_sum p n : svars 1 p -> (forall x, coeff p x <> k0 -> mexp x 0 < n) -> peq p (wsum n (fun i => coeff p (X i)) (fun i => pterm k1 (X i))).
Proof.
  intros V B. apply peq_coeff. intros x. rewrite coeff_wsum.
  assert (E : forall i, kmul (coeff p (X i)) (coeff (pterm k1 (X i)) x) = if mono_dec (X i) x then coeff p x else k0).
  { intros i. rewrite coeff_pterm. destruct (mono_dec (X i) x) as [<-|]; ring. }
  rewrite (sumn_ext n _ (fun i => if mono_dec (X i) x then coeff p x else k0)) by (intros; apply E). clear E.
  destruct (kdec (coeff p x) k0) as [Z|N].
  - rewrite Z. symmetry. apply sumn_zero'. intros i _. destruct (mono_dec (X i) x); reflexivity.
  - rewrite (sumn_pick n _ (mexp x 0) (B x N)).
    + destruct (mono_dec (X (mexp x 0)) x) as [|Q]; [reflexivity|]. exfalso. apply Q. symmetry. apply uni. apply V. exact N.
    + intros j Hj Nj. destruct (mono_dec (X j) x) as [Q|]; [|reflexivity]. exfalso. apply Nj. rewrite <- Q, X_exp. reflexivity.
Qed.

Lemma in_single p q : in_ideal [q] p -> exists c, peq p (pmul c q).
Proof. intros ([|c [|]] & L & E); cbn in L; try discriminate. exists c. rewrite E. cbn [lincomb]. ring. Qed.
Lemma in_pair f g p : in_ideal [f; g] p -> exists u v, peq p (padd (pmul u f) (pmul v g)).
Proof. intros ([|u [|v [|]]] & L & E); cbn in L; try discriminate. exists u, v. rewrite E. cbn [lincomb]. ring. Qed.
Lemma ideal_le G H : (forall q, In q G -> in_ideal H q) -> forall p, in_ideal G p -> in_ideal H p.
Proof. intros Q p. apply in_ideal_sub_ideal. exact Q. Qed.
(** two polynomials in one variable have a greatest common divisor *)
Lemma gcd_exists f g : svars 1 f -> svars 1 g -> exists h, svars 1 h /\ forall p, in_ideal [f; g] p <-> in_ideal [h] p.
Proof.
  intros Vf Vg. assert (D : exists d, forall x, coeff g x <> k0 -> mexp x 0 < d).
  { destruct (zero_or_lm lt LW g) as [Z|(l & L)]; [exists 0; intros x N; rewrite Z in N; contradiction N; reflexivity|].
    pose proof (is_lm_vars lt 1 g l Vg L) as Vl. rewrite (uni l Vl) in L. exists (S (mexp l 0)). intros x N. pose proof (lm_bound g _ x Vg L N). lia. }
  destruct D as (d & D). revert f g Vf Vg D. induction d as [|d IH]; intros f g Vf Vg D.
  - exists f. split; [exact Vf|]. assert (Z : peq g pzero).
    { apply peq_coeff. intros x. rewrite coeff_zero. destruct (kdec (coeff g x) k0) as [Y|Y]; [exact Y|]. specialize (D x Y). lia. }
    intros p. split; apply ideal_le; intros q Iq.
    + destruct Iq as [<-|[<-|[]]]; [apply in_ideal_gen; left; reflexivity|]. rewrite Z. apply in_ideal_zero.
    + destruct Iq as [<-|[]]. apply in_ideal_gen. left. reflexivity.
  - destruct (zero_or_lm lt LW g) as [Z|(l & L)]; [apply IH; auto; intros x N; rewrite Z in N; contradiction N; reflexivity|].
    pose proof (is_lm_vars lt 1 g l Vg L) as Vl.
    destruct (normal_form lt LW 1 [g]) with (p := f) as (r & Ir & Sr); [intros y [<-|[]]; exact Vg|exact Vf|].
    assert (Vr : svars 1 r) by (intros x N; apply Sr; exact N).
    destruct (IH g r Vg Vr) as (h & Vh & Eh).
    { intros x N. destruct (Sr x N) as [Vx Sx]. specialize (D l (proj1 L)). destruct (Nat.lt_ge_cases (mexp x 0) d) as [|Ge]; [assumption|]. exfalso.
      apply (Sx g l (or_introl eq_refl) L). intros [|i]; [lia|rewrite Vl by lia; lia]. }
    exists h. split; [exact Vh|]. intros p. rewrite <- Eh. assert (Ig : forall G : list spoly, In g G -> in_ideal G (psub f r)).
    { intros G I. apply (ideal_le [g] G); [|exact Ir]. intros q [<-|[]]. apply in_ideal_gen. exact I. }
    split; apply ideal_le; intros q Iq.
    + destruct Iq as [<-|[<-|[]]]; [|apply in_ideal_gen; left; reflexivity]. assert (E : peq f (padd (psub f r) r)) by ring. rewrite E.
      apply in_ideal_add; [apply Ig; left; reflexivity|apply in_ideal_gen; right; left; reflexivity].
    + destruct Iq as [<-|[<-|[]]]; [apply in_ideal_gen; right; left; reflexivity|]. assert (E : peq r (psub f (psub f r))) by ring. rewrite E.
      apply in_ideal_sub; [apply in_ideal_gen; left; reflexivity|apply Ig; right; left; reflexivity].
Qed.

Section Sylvester.
Variables (f g h : spoly) (m n k : nat).
Hypothesis Vf : svars 1 f.
Hypothesis Vg : svars 1 g.
Hypothesis Vh : svars 1 h.
Hypothesis Lf : LM f (X m).
Hypothesis Lg : LM g (X n).
Hypothesis Lh : LM h (X k).
Hypothesis Ideal : forall p, in_ideal [f; g] p <-> in_ideal [h] p.

Definition syl_row (i : nat) : spoly := if i <? n then tmul k1 (X (n - 1 - i)) f else tmul k1 (X (m + n - 1 - i)) g.
Definition syl_ms (j : nat) : mono := X (m + n - 1 - j).

Lemma syl_dec i j : i < j -> j < m + n -> lt (syl_ms j) (syl_ms i).
Proof. intros H H'. unfold syl_ms. apply X_lt. lia. Qed.
Lemma syl_cov i x : i < m + n -> coeff (syl_row i) x <> k0 -> exists j, j < m + n /\ syl_ms j = x.
Proof.
  intros Hi N. unfold syl_row, syl_ms in *. destruct (Nat.ltb_spec i n) as [L|L]; apply coeff_tmul_inv in N as (_ & b & -> & N).
  - pose proof (lm_bound f m b Vf Lf N). rewrite (uni b (Vf b N)), X_mul. exists (m + n - 1 - (n - 1 - i + mexp b 0)). split; [lia|f_equal; lia].
  - pose proof (lm_bound g n b Vg Lg N). rewrite (uni b (Vg b N)), X_mul. exists (m + n - 1 - (m + n - 1 - i + mexp b 0)). split; [lia|f_equal; lia].
Qed.
(** multiples of f by polynomials of degree below n, and of g by polynomials of degree below m *)
Lemma syl_f u : svars 1 u -> (forall x, coeff u x <> k0 -> mexp x 0 < n) -> spans (m + n) syl_row (pmul u f).
Proof.
  intros V B. rewrite (uni_sum u n V B) at 1. generalize (fun i => coeff u (X i)) as w. intros w.
  assert (S : forall c, c <= n -> spans (m + n) syl_row (pmul (wsum c w (fun i => pterm k1 (X i))) f)); [|apply S; lia].
  induction c as [|c IH]; intros Hc; cbn [wsum]; [apply spans_zero|].
  assert (E : peq (pmul (padd (wsum c w (fun i => pterm k1 (X i))) (pscale (w c) (pterm k1 (X c)))) f)
     (padd (pmul (wsum c w (fun i => pterm k1 (X i))) f) (pscale (w c) (syl_row (n - 1 - c))))).
  { unfold syl_row. destruct (Nat.ltb_spec (n - 1 - c) n) as [_|]; [|lia]. replace (n - 1 - (n - 1 - c)) with c by lia. unfold pscale. rewrite !tmul_pmul. ring. }
  rewrite E. apply spans_add; [apply IH; lia|apply spans_row; lia].
Qed.
Lemma syl_g v : svars 1 v -> (forall x, coeff v x <> k0 -> mexp x 0 < m) -> spans (m + n) syl_row (pmul v g).
Proof.
  intros V B. rewrite (uni_sum v m V B) at 1. generalize (fun i => coeff v (X i)) as w. intros w.
  assert (S : forall c, c <= m -> spans (m + n) syl_row (pmul (wsum c w (fun i => pterm k1 (X i))) g)); [|apply S; lia].
  induction c as [|c IH]; intros Hc; cbn [wsum]; [apply spans_zero|].
  assert (E : peq (pmul (padd (wsum c w (fun i => pterm k1 (X i))) (pscale (w c) (pterm k1 (X c)))) g)
     (padd (pmul (wsum c w (fun i => pterm k1 (X i))) g) (pscale (w c) (syl_row (m + n - 1 - c))))).
  { unfold syl_row. destruct (Nat.ltb_spec (m + n - 1 - c) n) as [|_]; [lia|]. replace (m + n - 1 - (m + n - 1 - c)) with c by lia. unfold pscale. rewrite !tmul_pmul. ring. }
  rewrite E. apply spans_add; [apply IH; lia|apply spans_row; lia].
Qed.
Lemma syl_ideal p : spans (m + n) syl_row p -> in_ideal [f; g] p.
Proof.
  intros (w & E). rewrite E. apply wsum_ideal. intros i Hi. unfold syl_row. destruct (i <? n); rewrite tmul_pmul; apply in_ideal_mul; apply in_ideal_gen; [left|right; left]; reflexivity.
Qed.
(** the leading monomials *)
Lemma syl_lm_low p x : spans (m + n) syl_row p -> LM p x -> exists e, k <= e /\ e < m + n /\ x = X e.
Proof.
  intros S L. pose proof (proj1 (spans_rowspace (m + n) (m + n) syl_row syl_ms syl_cov p) S) as [C _]. destruct (C x (proj1 L)) as (j & Hj & E).
  exists (m + n - 1 - j). split; [|split; [lia|symmetry; exact E]]. apply syl_ideal in S. apply Ideal in S. apply in_single in S as (q & Eq). rewrite Eq in L.
  apply (lm_pmul_inv lt LW) in L as (a & b & _ & Lb & Ex). rewrite (is_lm_unique lt LW _ _ _ Lb Lh) in Ex. rewrite Ex in E. unfold syl_ms in E.
  apply (f_equal (fun x => mexp x 0)) in E. rewrite mmul_exp, !X_exp in E. lia.
Qed.
Lemma syl_multiple e : k <= e -> e < m + n -> spans (m + n) syl_row (tmul k1 (X (e - k)) h).
Proof.
  intros H1 H2.
  assert (Ih : in_ideal [f; g] h) by (apply Ideal; apply in_ideal_gen; left; reflexivity).
  destruct (in_pair f g h Ih) as (u0 & v0 & E0). destruct (bezout_vars 1 h u0 v0 f g Vh Vf Vg E0) as (u & v & Vu & Vv & E). clear u0 v0 E0.
  assert (If : in_ideal [h] f) by (apply Ideal; apply in_ideal_gen; left; reflexivity).
  assert (Ig : in_ideal [h] g) by (apply Ideal; apply in_ideal_gen; right; left; reflexivity).
  destruct (in_single _ _ If) as (f0 & F0). destruct (factor_vars 1 f f0 h Vf Vh F0) as (f1 & Vf1 & Ef). clear f0 F0.
  destruct (in_single _ _ Ig) as (g0 & G0). destruct (factor_vars 1 g g0 h Vg Vh G0) as (g1 & Vg1 & Eg). clear g0 G0.
  set (t := pterm k1 (X (e - k)) : spoly). assert (Vt : svars 1 t) by (apply svars_pterm; apply X_vars).
  (* the leading monomial of the cofactor *)
  pose proof Lg as Lg'. rewrite Eg in Lg'. apply (lm_pmul_inv lt LW) in Lg' as (a & b & La & Lb & Ea). rewrite (is_lm_unique lt LW _ _ _ Lb Lh) in Ea. clear b Lb.
  rewrite (uni a (is_lm_vars lt 1 g1 a Vg1 La)), X_mul in Ea. apply (f_equal (fun x => mexp x 0)) in Ea. rewrite !X_exp in Ea.
  (* reduce the first coefficient *)
  destruct (normal_form lt LW 1 [g1]) with (p := pmul t u) as (u' & Iu & Su).
  { intros y [<-|[]]. exact Vg1. }
  { apply svars_mul; assumption. }
  assert (Vu' : svars 1 u') by (intros y N; apply Su; exact N).
  apply in_single in Iu as (q0 & Q0).
  destruct (factor_vars 1 (psub (pmul t u) u') q0 g1) as (q & Vq & Eq).
  { intros y N. rewrite coeff_sub in N. destruct (kdec (coeff (pmul t u) y) k0) as [Z|Z]; [|apply (svars_mul 1 t u Vt Vu y Z)].
    apply Vu'. intros Y. apply N. rewrite Z, Y. ring. }
  { exact Vg1. }
  { exact Q0. }
  set (v' := padd (pmul q f1) (pmul t v)).
  assert (Vv' : svars 1 v') by (apply svars_add; apply svars_mul; assumption).
  assert (D : peq (tmul k1 (X (e - k)) h) (padd (pmul u' f) (pmul v' g))).
  { assert (A : peq (pmul t u) (padd u' (pmul q g1))) by (rewrite <- Eq; ring). rewrite tmul_pmul. fold t. unfold v'.
    transitivity (pmul t (padd (pmul u f) (pmul v g))); [rewrite <- E; reflexivity|].
    transitivity (padd (pmul (pmul t u) f) (pmul (pmul t v) g)); [ring|]. rewrite A.
    assert (B : peq (pmul g1 f) (pmul f1 g)) by (rewrite Ef, Eg; ring).
    transitivity (padd (padd (pmul u' f) (pmul q (pmul g1 f))) (pmul (pmul t v) g)); [ring|]. rewrite B. ring. }
  assert (Bu : forall x, coeff u' x <> k0 -> mexp x 0 < n).
  { intros x N. destruct (Su x N) as [Vx Sx]. destruct (Nat.lt_ge_cases (mexp x 0) n) as [L|L]; [exact L|]. exfalso. apply (Sx g1 a (or_introl eq_refl) La).
    intros i. destruct i as [|i]; [|rewrite (is_lm_vars lt 1 g1 a Vg1 La (S i)) by lia; lia]. lia. }
  assert (Bv : forall x, coeff v' x <> k0 -> mexp x 0 < m).
  { destruct (zero_or_lm lt LW v') as [Z|(b & Lb)]; [intros x N; rewrite Z in N; contradiction N; reflexivity|].
    pose proof (is_lm_vars lt 1 v' b Vv' Lb) as Vb. rewrite (uni b Vb) in Lb.
    intros x N. pose proof (lm_bound v' (mexp b 0) x Vv' Lb N) as Le. apply (Nat.le_lt_trans _ _ _ Le).
    pose proof (is_lm_mul lt LW v' g _ _ Lb Lg) as [Nz _]. rewrite X_mul in Nz.
    assert (D' : peq (pmul v' g) (psub (tmul k1 (X (e - k)) h) (pmul u' f))) by (rewrite D; ring). rewrite D', coeff_sub in Nz.
    destruct (kdec (coeff (tmul k1 (X (e - k)) h) (X (mexp b 0 + n))) k0) as [Z|Y].
    - destruct (kdec (coeff (pmul u' f) (X (mexp b 0 + n))) k0) as [Z'|Y]; [exfalso; apply Nz; rewrite Z, Z'; ring|].
      apply coeff_mul_inv in Y as (c & d & Ec & Nc & Nd). pose proof (Bu c Nc). pose proof (lm_bound f m d Vf Lf Nd).
      apply (f_equal (fun x => mexp x 0)) in Ec. rewrite mmul_exp, X_exp in Ec. lia.
    - apply coeff_tmul_inv in Y as (_ & d & Ec & Nd). pose proof (lm_bound h k d Vh Lh Nd). apply (f_equal (fun x => mexp x 0)) in Ec. rewrite mmul_exp, !X_exp in Ec. lia. }
  rewrite D. apply spans_add; [apply syl_f; assumption|apply syl_g; assumption].
Qed.
Lemma syl_lm_all e : k <= e -> e < m + n -> exists p, spans (m + n) syl_row p /\ LM p (X e).
Proof.
  intros H1 H2. exists (tmul k1 (X (e - k)) h). split; [apply syl_multiple; assumption|].
  replace (X e) with (mmul (X (e - k)) (X k)) by (rewrite X_mul; f_equal; lia). apply (is_lm_tmul lt LW); [apply (F_1_neq_0 (kth K))|exact Lh].
Qed.
End Sylvester.
End Syl.
