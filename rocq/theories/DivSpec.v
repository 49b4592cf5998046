(** * The division algorithm characterised: the textbook conditions have at most one solution.

    Pure mathematics over [PolySpec]; nothing here mentions the code. *)
From Verif Require Import Base FieldIface MonoSpec PolySpec GroebnerSpec.
From Coq Require Import Ring Field Setoid Morphisms.

Section DivSpec.
Context {K : MathField}.
Add Field Kf7 : (kth K).
Add Ring Pr7 : (@poly_ring K) (setoid (@peq_equiv K) (@poly_ring_ext K)).
Context (lt : mono -> mono -> Prop) (L : mono_order_laws lt).
Notation spoly := (spoly K).
Notation LM := (is_lm lt).
Implicit Types (p q f g h r : spoly) (m a b l : mono) (gs qs : list spoly).

(** no term of the i-th quotient could have been absorbed by an earlier divisor; zero divisors get
    zero quotients *)
Definition first_rule qs gs : Prop :=
  (forall i j q gi gj li lj a, nth_error qs i = Some q -> nth_error gs i = Some gi -> nth_error gs j = Some gj ->
     LM gi li -> LM gj lj -> coeff q a <> k0 -> j < i -> ~ mdiv lj (mmul a li)) /\
  (forall i q g, nth_error qs i = Some q -> nth_error gs i = Some g -> peq g pzero -> peq q pzero).

Record division f gs qs r : Prop := {
  dv_len : length qs = length gs;
  dv_eq : peq f (padd (lincomb qs gs) r);
  dv_red : reduced lt gs r;
  dv_first : first_rule qs gs
}.

Definition apart p q : Prop := forall m, LM p m -> ~ LM q m.

Lemma lm_add_lt p q m m' : LM p m -> LM q m' -> lt m m' -> LM (padd p q) m'.
Proof.
  intros Hp Hq H. split.
  - rewrite coeff_add. assert (Z : coeff p m' = k0).
    { destruct (kdec (coeff p m') k0) as [|N]; auto. exfalso. apply (proj2 Hp) in N. apply (mle_not_lt lt L _ _ N H). }
    rewrite Z. intros E. apply (proj1 Hq). rewrite <- E. ring.
  - intros x X. rewrite coeff_add in X. destruct (kdec (coeff p x) k0) as [Z|N].
    + apply (proj2 Hq). intros Z'. apply X. rewrite Z, Z'. ring.
    + right. apply (mle_lt_trans lt L x m); auto. apply (proj2 Hp). exact N.
Qed.

Lemma psum_apart ps : ForallOrdPairs apart ps ->
  Forall (fun p => peq p pzero) ps \/ exists p m, In p ps /\ LM p m /\ LM (psum ps) m.
Proof.
  induction 1 as [|p ps Hp Hps IH]; [left; constructor|]. simpl psum.
  destruct IH as [Z|(q & m & I & Lq & Ls)].
  - assert (E : peq (psum ps) pzero).
    { clear - Z. induction Z as [|x l Zx _ IH]; [reflexivity|]. simpl. rewrite Zx, IH. ring. }
    destruct (zero_or_lm lt L p) as [Zp|(m & Lp)]; [left; constructor; auto|right].
    exists p, m. split; [left; reflexivity|]. split; [exact Lp|]. rewrite E.
    assert (X : peq (padd p pzero) p) by ring. rewrite X. exact Lp.
  - right. destruct (zero_or_lm lt L p) as [Zp|(m' & Lp)].
    + exists q, m. split; [right; exact I|]. split; [exact Lq|].
      assert (X : peq (padd p (psum ps)) (psum ps)) by (rewrite Zp; ring). rewrite X. exact Ls.
    + rewrite Forall_forall in Hp. pose proof (Hp q I) as A. destruct (lt_total lt L m m') as [->|[H|H]].
      * exfalso. exact (A m' Lp Lq).
      * exists p, m'. split; [left; reflexivity|]. split; [exact Lp|].
        assert (X : peq (padd p (psum ps)) (padd (psum ps) p)) by ring. rewrite X. eapply lm_add_lt; eassumption.
      * exists q, m. split; [right; exact I|]. split; [exact Lq|]. eapply lm_add_lt; eassumption.
Qed.

Lemma psum_apart_zero ps : ForallOrdPairs apart ps -> peq (psum ps) pzero -> Forall (fun p => peq p pzero) ps.
Proof.
  intros A E. destruct (psum_apart ps A) as [|(p & m & _ & _ & Ls)]; auto. exfalso. apply (proj1 Ls). rewrite E. reflexivity.
Qed.

Fixpoint prods qs gs : list spoly :=
  match qs, gs with q :: qs', g :: gs' => pmul q g :: prods qs' gs' | _, _ => [] end.
Lemma lincomb_prods qs : forall gs, lincomb qs gs = psum (prods qs gs).
Proof. induction qs as [|q qs IH]; intros [|g gs]; simpl; auto. rewrite IH. reflexivity. Qed.

(** leading monomial of a product, backwards *)
Lemma lm_pmul_inv p q m : LM (pmul p q) m -> exists a b, LM p a /\ LM q b /\ m = mmul a b.
Proof.
  intros H. destruct (zero_or_lm lt L p) as [Z|(a & Ha)].
  { exfalso. apply (proj1 H). assert (E : peq (pmul p q) pzero) by (rewrite Z; ring). rewrite E. reflexivity. }
  destruct (zero_or_lm lt L q) as [Z|(b & Hb)].
  { exfalso. apply (proj1 H). assert (E : peq (pmul p q) pzero) by (rewrite Z; ring). rewrite E. reflexivity. }
  exists a, b. split; auto. split; auto. eapply (is_lm_unique lt L); [exact H|]. apply (is_lm_mul lt L); assumption.
Qed.
(** there are no zero divisors *)
Lemma pmul_zero_inv p q : peq (pmul p q) pzero -> peq p pzero \/ peq q pzero.
Proof.
  intros E. destruct (zero_or_lm lt L p) as [|(a & Ha)]; auto. destruct (zero_or_lm lt L q) as [|(b & Hb)]; auto.
  exfalso. apply (proj1 (is_lm_mul lt L p q a b Ha Hb)). rewrite E. reflexivity.
Qed.

Lemma first_rule_tail q g qs gs : first_rule (q :: qs) (g :: gs) -> first_rule qs gs.
Proof.
  intros [A B]. split.
  - intros i j q' gi gj li lj a Hq Hi Hj Li Lj N Lt. apply (A (S i) (S j) q' gi gj li lj a); auto. lia.
  - intros i q' g' Hq Hg. apply (B (S i)); assumption.
Qed.

Lemma prods_in qs : forall gs p, In p (prods qs gs) -> exists i q g, nth_error qs i = Some q /\ nth_error gs i = Some g /\ p = pmul q g.
Proof.
  induction qs as [|q qs IH]; intros [|g gs] p I; simpl in I; try contradiction. destruct I as [<-|I].
  - exists 0, q, g. auto.
  - destruct (IH gs p I) as (i & q' & g' & H). exists (S i), q', g'. exact H.
Qed.

Lemma prods_apart qs : forall gs, first_rule qs gs -> ForallOrdPairs apart (prods qs gs).
Proof.
  induction qs as [|q qs IH]; intros [|g gs] R; simpl; try constructor.
  - apply Forall_forall. intros p I. apply prods_in in I as (i & q' & g' & Eq & Eg & ->).
    intros m H1 H2. apply lm_pmul_inv in H1 as (a & b & La & Lb & ->). apply lm_pmul_inv in H2 as (a' & b' & La' & Lb' & E).
    apply (proj1 R (S i) 0 q' g' g b' b a'); auto; [apply La'|lia|]. rewrite <- E. rewrite mmul_comm. apply mdiv_mul.
  - apply IH. eapply first_rule_tail; exact R.
Qed.

Lemma ForallOrdPairs_snoc {A} (R : A -> A -> Prop) (l : list A) x : ForallOrdPairs R l -> Forall (fun y => R y x) l -> ForallOrdPairs R (l ++ [x]).
Proof.
  induction 1 as [|y l Hy Hl IH]; intros H; simpl; [repeat constructor|]. inversion H; subst.
  constructor; [apply Forall_app; split; [exact Hy|constructor; auto]|]. apply IH. assumption.
Qed.
Lemma psum_snoc ps p : peq (psum (ps ++ [p])) (padd (psum ps) p).
Proof. induction ps as [|x ps IH]; simpl; [ring|]. rewrite IH. ring. Qed.

Lemma reduced_apart gs r qs : reduced lt gs r -> Forall (fun p => apart p r) (prods qs gs).
Proof.
  intros R. apply Forall_forall. intros p I. apply prods_in in I as (i & q & g & Eq & Eg & ->).
  intros m H1 H2. apply lm_pmul_inv in H1 as (a & b & La & Lb & ->).
  apply (R (mmul a b) (proj1 H2) g b (nth_error_In _ _ Eg) Lb). rewrite mmul_comm. apply mdiv_mul.
Qed.

Fixpoint subs (qs qs' : list spoly) : list spoly :=
  match qs, qs' with q :: t, q' :: t' => psub q q' :: subs t t' | _, _ => [] end.
Lemma subs_nth qs : forall qs' i d, nth_error (subs qs qs') i = Some d ->
  exists q q', nth_error qs i = Some q /\ nth_error qs' i = Some q' /\ d = psub q q'.
Proof.
  induction qs as [|q qs IH]; intros [|q' qs'] [|i] d E; simpl in *; try discriminate.
  - injection E as <-. eauto.
  - apply IH. exact E.
Qed.
Lemma lincomb_subs qs : forall qs' gs, length qs = length gs -> length qs' = length gs ->
  peq (lincomb (subs qs qs') gs) (psub (lincomb qs gs) (lincomb qs' gs)).
Proof.
  induction qs as [|q qs IH]; intros [|q' qs'] [|g gs] A B; simpl in *; try discriminate; [ring|].
  rewrite IH by lia. ring.
Qed.
Lemma subs_first qs qs' gs : first_rule qs gs -> first_rule qs' gs -> first_rule (subs qs qs') gs.
Proof.
  intros [A B] [A' B']. split.
  - intros i j d gi gj li lj a Hd Hi Hj Li Lj N Lt. apply subs_nth in Hd as (q & q' & Hq & Hq' & ->).
    rewrite coeff_sub in N. destruct (kdec (coeff q a) k0) as [Z|Y]; [|exact (A i j q gi gj li lj a Hq Hi Hj Li Lj Y Lt)].
    apply (A' i j q' gi gj li lj a); auto. intros Z'. apply N. rewrite Z, Z'. ring.
  - intros i d g Hd Hg Z. apply subs_nth in Hd as (q & q' & Hq & Hq' & ->).
    rewrite (B i q g Hq Hg Z), (B' i q' g Hq' Hg Z). ring.
Qed.

Lemma prods_zero qs : forall gs, length qs = length gs -> first_rule qs gs -> Forall (fun p => peq p pzero) (prods qs gs) ->
  Forall (fun q => peq q pzero) qs.
Proof.
  induction qs as [|q qs IH]; intros [|g gs] Len R Z; simpl in *; try discriminate; [constructor|].
  inversion Z as [|? ? Z1 Z2]; subst. constructor.
  - apply pmul_zero_inv in Z1 as [|Zg]; auto. apply (proj2 R 0 q g); auto.
  - apply (IH gs); [lia|eapply first_rule_tail; exact R|exact Z2].
Qed.

Theorem division_unique f gs qs r qs' r' : division f gs qs r -> division f gs qs' r' ->
  Forall2 peq qs qs' /\ peq r r'.
Proof.
  intros [L1 E1 R1 F1] [L2 E2 R2 F2].
  assert (A : ForallOrdPairs apart (prods (subs qs qs') gs ++ [psub r r'])).
  { apply ForallOrdPairs_snoc.
    - apply prods_apart. apply subs_first; assumption.
    - apply reduced_apart. apply reduced_sub; assumption. }
  assert (Z : peq (psum (prods (subs qs qs') gs ++ [psub r r'])) pzero).
  { rewrite psum_snoc, <- lincomb_prods, lincomb_subs by assumption.
    assert (X : peq (padd (psub (lincomb qs gs) (lincomb qs' gs)) (psub r r')) (psub (padd (lincomb qs gs) r) (padd (lincomb qs' gs) r'))) by ring.
    rewrite X, <- E1, <- E2. ring. }
  apply (psum_apart_zero _ A) in Z. apply Forall_app in Z as [Z1 Z2]. inversion Z2 as [|? ? Z3 _]; subst. split.
  - assert (Len : length (subs qs qs') = length gs).
    { clear - L1 L2. revert qs' gs L1 L2. induction qs as [|q qs IH]; intros [|q' qs'] [|g gs] A B; simpl in *; try discriminate; auto. }
    apply prods_zero in Z1; [|exact Len|apply subs_first; assumption].
    assert (Leq : length qs = length qs') by congruence. clear - Z1 Leq.
    revert qs' Z1 Leq. induction qs as [|q qs IH]; intros [|q' qs'] Z1 Leq; simpl in *; try discriminate; constructor.
    + inversion Z1 as [|? ? Z _]; subst. assert (X : peq q (padd (psub q q') q')) by ring. rewrite X, Z. ring.
    + inversion Z1; subst. apply IH; [assumption|lia].
  - assert (X : peq r (padd (psub r r') r')) by ring. rewrite X, Z3. ring.
Qed.

End DivSpec.
