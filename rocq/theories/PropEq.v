(** * C88: equality of terms (elts.rs:271-277 implements PartialEq and Eq). *)
From Verif Require Import Base BaseLemmas IntModel RatModel FieldIface MDegModel PolyModel MDegProofs MatModel FloatModel.
From Coq Require Import Lia.

(** over Rational == is identity of representations, so an equivalence relation *)
Theorem C88_rational : forall m (a b : term (rat_impl m)), term_eqb a b = true <-> a = b.
Proof.
  intros m [c d] [c' d']. unfold term_eqb. cbn [coef tdeg feqb rat_impl]. rewrite Bool.andb_true_iff, mdeg_eqb_eq.
  unfold rat_eqb. rewrite Bool.andb_true_iff, !Z.eqb_eq. destruct c as [n e], c' as [n' e']. cbn [numer denom]. split.
  - intros [[-> ->] ->]. reflexivity.
  - intros H. injection H as -> -> ->. auto.
Qed.
Example C88_rational_example : forall m, @mkterm (rat_impl m) (mkrat 1 2) [1%nat] <> @mkterm (rat_impl m) (mkrat 1 2) [1%nat; 1%nat].
Proof. intros m H. discriminate H. Qed.
(** it does not compare values: (1/2) x + (1/2) x is not == x *)
Theorem C88_value_refuted : exists s r : term (rat_impl Debug),
  term_add (@mkterm (rat_impl Debug) (mkrat 1 2) [1%nat]) (@mkterm (rat_impl Debug) (mkrat 1 2) [1%nat]) = Ok [s] /\
  r = @mkterm (rat_impl Debug) rat_one [1%nat] /\ rat_cmp Debug (coef s) (coef r) = Ok Eq /\ tdeg s = tdeg r /\ term_eqb s r = false.
Proof. exists (@mkterm (rat_impl Debug) (mkrat 4 4) [1%nat]), (@mkterm (rat_impl Debug) rat_one [1%nat]). repeat split; reflexivity. Qed.

(** rationals: == holds exactly when the same values are hashed, so hashed collections are consistent with == ... *)
Theorem C88_hash : forall a b, rat_eqb a b = true <-> rat_hash a = rat_hash b.
Proof.
  intros [n d] [n' d']. unfold rat_eqb, rat_hash. cbn. rewrite Bool.andb_true_iff, !Z.eqb_eq. split; [intros [-> ->]; reflexivity|].
  intros H. injection H as -> ->. auto.
Qed.
(** ... but not with cmp: a sum and the number 1 compare as equal and hash differently *)
Theorem C88_hash_order_refuted : exists a, rat_add Debug (mkrat 1 2) (mkrat 1 2) = Ok a /\ rat_cmp Debug a rat_one = Ok Eq /\ rat_hash a <> rat_hash rat_one.
Proof. exists (mkrat 4 4). split; [reflexivity|]. split; [reflexivity|]. discriminate. Qed.
Example C88_hash_ex : rat_hash (mkrat (-1) 2) = [(-1)%Z; 2%Z]. Proof. reflexivity. Qed.

(** matrices (mat.rs:9, derived): same shape and identical entries *)
Theorem C88_matrix : forall m (a b : mat (rat_impl m)), mat_eqb a b = true <-> a = b.
Proof.
  intros m a b. unfold mat_eqb. rewrite !Bool.andb_true_iff, !Nat.eqb_eq. destruct a as [ea ra ca], b as [eb rb cb]. cbn [ments mrows mcols].
  assert (H : forall l l' : list (rat_impl m), list_feqb l l' = true <-> l = l').
  { induction l as [|x l IH]; intros [|y l']; cbn [list_feqb]; try (split; [discriminate|intros H; discriminate H]); [tauto|].
    rewrite Bool.andb_true_iff, IH. cbn [feqb rat_impl]. unfold rat_eqb. rewrite Bool.andb_true_iff, !Z.eqb_eq. destruct x as [n d], y as [n' d']. cbn [numer denom]. split.
    - intros [[-> ->] ->]. reflexivity.
    - intros H. injection H as -> -> ->. auto. }
  rewrite H. split; [intros [[-> ->] ->]; reflexivity|]. intros E. injection E as -> -> ->. auto.
Qed.
Example C88_matrix_example : forall m, let x : rat_impl m := rat_one in mat_eqb (mat_new 1 2 [x; x]) (mat_new 2 1 [x; x]) = false.
Proof. reflexivity. Qed.

Section Float.
Context (t : fmt) (e : fenv).
Notation F := (float_impl t e).
Lemma SFeqb_spec (x y : float) : SFeqb x y = true <-> (x <> S754_nan /\ x = y) \/ (exists s s', x = S754_zero s /\ y = S754_zero s').
Proof.
  unfold SFeqb. split.
  - destruct x as [s|s| |s m k], y as [s'|s'| |s' m' k']; cbn [SFcompare]; try discriminate; try (destruct s; discriminate); try (destruct s'; discriminate).
    + intros _. right. eauto.
    + destruct s, s'; try discriminate; intros _; left; split; [discriminate|reflexivity|discriminate|reflexivity].
    + destruct s, s'; try discriminate.
      * destruct (k ?= k')%Z eqn:K; try discriminate. apply Z.compare_eq_iff in K. subst k'.
        destruct (Pcompare m m' Eq) eqn:P; try discriminate. apply Pos.compare_eq in P. subst. intros _. left. split; [discriminate|reflexivity].
      * destruct (k ?= k')%Z eqn:K; try discriminate. apply Z.compare_eq_iff in K. subst k'.
        destruct (Pcompare m m' Eq) eqn:P; try discriminate. apply Pos.compare_eq in P. subst. intros _. left. split; [discriminate|reflexivity].
  - intros [[N <-]|(s & s' & -> & ->)]; [|reflexivity]. destruct x as [s|s| |s m k]; cbn [SFcompare]; try reflexivity; [destruct s; reflexivity|contradiction N; reflexivity|].
    rewrite Z.compare_refl. change (Pcompare m m Eq) with (Pos.compare m m). rewrite Pos.compare_refl. destruct s; reflexivity.
Qed.
(** over floats: NaN coefficients are equal to nothing, 0.0 and -0.0 are equal, otherwise identity *)
Theorem C88_float : forall a b : term F, term_eqb a b = true <->
  tdeg a = tdeg b /\ (((coef a : float) <> S754_nan /\ coef a = coef b) \/ (exists s s', (coef a : float) = S754_zero s /\ (coef b : float) = S754_zero s')).
Proof. intros a b. unfold term_eqb. rewrite Bool.andb_true_iff, mdeg_eqb_eq. cbn [feqb float_impl]. rewrite SFeqb_spec. tauto. Qed.
Theorem C88_float_equivalence : forall a b c : term F,
  (term_eqb a b = term_eqb b a) /\ (term_eqb a b = true -> term_eqb b c = true -> term_eqb a c = true).
Proof.
  intros a b c.
  assert (S : forall a b : term F, term_eqb a b = true -> term_eqb b a = true).
  { intros a' b' H. apply C88_float in H as [D [[N H]|(s & s' & H & H')]]; apply C88_float; (split; [symmetry; exact D|]).
    - left. rewrite <- H. auto.
    - right. exists s', s. auto. }
  split.
  - destruct (term_eqb a b) eqn:E; [symmetry; apply S; exact E|]. destruct (term_eqb b a) eqn:E'; [|reflexivity]. apply S in E'. congruence.
  - intros H H'. apply C88_float in H as [D [[N H]|(s & s' & H1 & H2)]]; apply C88_float in H' as [D' [[N' H']|(r & r' & H1' & H2')]]; apply C88_float; (split; [congruence|]).
    + left. split; congruence.
    + right. exists r, r'. split; congruence.
    + right. exists s, s'. split; congruence.
    + right. exists s, r'. split; congruence.
Qed.
(** the contract of Eq (reflexivity) does not hold: NaN x *)
Theorem C88_float_reflexive_refuted : exists a : term F, term_eqb a a = false.
Proof. exists (@mkterm F S754_nan [1%nat]). reflexivity. Qed.
End Float.
(** == does not mean same behaviour under division: 1/0.0 and 1/-0.0 differ *)
Example C88_float_example : forall e, let F := float_impl binary64 e in
  term_eqb (@mkterm F (S754_zero false) []) (@mkterm F (S754_zero true) []) = true /\
  @fdiv F (fone binary64) (S754_zero false) <> @fdiv F (fone binary64) (S754_zero true).
Proof. intros e. split; [reflexivity|]. discriminate. Qed.
Print Assumptions C88_rational.
Print Assumptions C88_hash.
Print Assumptions C88_hash_order_refuted.
Print Assumptions C88_value_refuted.
Print Assumptions C88_matrix.
Print Assumptions C88_float.
Print Assumptions C88_float_equivalence.
Print Assumptions C88_float_reflexive_refuted.
