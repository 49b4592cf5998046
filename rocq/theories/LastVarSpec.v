(** * Specification: the graded reverse lexicographic order and the last variable.

    Pure mathematics; nothing here mentions the code. *)
From Verif Require Import Base FieldIface MonoSpec PolySpec GroebnerSpec IdealSpec GradeSpec GridSpec RewriteSpec.
From Coq Require Import Lia Ring Field Setoid Morphisms.
Local Open Scope nat_scope.

(** the total degree and the exponents of the variables after x_n *)
Definition tgr (n : nat) (m : mono) : mono := canon (mtot m :: skipn (S n) (mlist m)).
Lemma expo_skipn k l i : expo (skipn k l) i = expo l (k + i).
Proof. unfold expo. revert l. induction k as [|k IH]; intros l; [reflexivity|]. destruct l as [|x l]; cbn [skipn Nat.add nth]; [destruct i; reflexivity|apply IH]. Qed.
Lemma tgr_iff n a b : tgr n a = tgr n b <-> mtot a = mtot b /\ forall i, n < i -> mexp a i = mexp b i.
Proof.
  assert (X : forall m i, mexp (tgr n m) (S i) = mexp m (S n + i)).
  { intros m i. unfold tgr. rewrite canon_exp, expo_cons_S, expo_skipn. reflexivity. }
  assert (Y : forall m, mexp (tgr n m) 0 = mtot m) by (intros m; unfold tgr; rewrite canon_exp; reflexivity).
  split.
  - intros E. split; [rewrite <- !Y, E; reflexivity|]. intros i Hi. replace i with (S n + (i - S n)) by lia. rewrite <- !X, E. reflexivity.
  - intros [E H]. apply mono_ext. intros [|i]; [rewrite !Y; exact E|]. rewrite !X. apply H. lia.
Qed.
Lemma tgr_mul n a b c : tgr n a = tgr n b -> tgr n (mmul c a) = tgr n (mmul c b).
Proof. rewrite !tgr_iff. intros [E H]. rewrite !mtot_mul, E. split; [reflexivity|]. intros i Hi. rewrite !mmul_exp, (H i Hi). reflexivity. Qed.

Section LastVar.
Context {K : MathField}.
Add Field Kf75 : (kth K).
Add Ring Pr75 : (@poly_ring K) (setoid (@peq_equiv K) (@poly_ring_ext K)).
Notation spoly := (spoly K).
Variable n : nat.
Notation lt := grevlex_lt.
Notation LM := (is_lm grevlex_lt).
Notation LW := grevlex_laws.
Notation hom := (homog (tgr n)).
(** x_n^k p *)
Notation xmul k p := (tmul k1 (mvar n k) p).

(** in a homogeneous polynomial no exponent of x_n is below that of the leading monomial *)
Lemma lm_last (g : spoly) l m : hom g -> LM g l -> coeff g m <> k0 -> mexp l n <= mexp m n.
Proof.
  intros H [Nl Ll] Nm. destruct (Ll m Nm) as [->|L]; [lia|]. pose proof (proj1 (tgr_iff n l m) (H l m Nl Nm)) as [T X].
  destruct L as [L|(_ & k & A & B)]; [lia|]. destruct (Nat.lt_trichotomy k n) as [Q|[->|Q]].
  - rewrite (B n Q). lia.
  - lia.
  - rewrite (X k Q) in A. lia.
Qed.
Lemma xmul_exp k m i : mexp (mmul (mvar n k) m) i = (if Nat.eqb i n then k else 0) + mexp m i.
Proof. rewrite mmul_exp, mvar_exp. reflexivity. Qed.
Lemma xmul_hom k (q : spoly) : hom (xmul k q) -> hom q.
Proof.
  intros H a b Na Nb. assert (X : tgr n (mmul (mvar n k) a) = tgr n (mmul (mvar n k) b)).
  { apply H; rewrite coeff_tmul; intros Z; [apply Na|apply Nb]; rewrite <- Z; ring. }
  apply tgr_iff in X as [E X]. apply tgr_iff. rewrite !mtot_mul in E. split; [lia|]. intros i Hi. specialize (X i Hi). rewrite !xmul_exp in X. lia.
Qed.
Lemma xmul_lm k (q : spoly) l : LM q l -> LM (xmul k q) (mmul (mvar n k) l).
Proof. intros H. apply is_lm_tmul; [exact LW|apply (F_1_neq_0 (kth K))|exact H]. Qed.
Lemma xmul_xmul j k (p : spoly) : peq (xmul j (xmul k p)) (xmul (j + k) p).
Proof.
  intros phi. rewrite !ev_tmul. assert (E : forall b, mmul (mvar n j) (mmul (mvar n k) b) = mmul (mvar n (j + k)) b).
  { intros b. apply mono_ext. intros i. rewrite !xmul_exp. destruct (Nat.eqb i n); lia. }
  rewrite (ev_ext p _ (fun b => phi (mmul (mvar n (j + k)) b))) by (intros b; rewrite E; reflexivity). ring.
Qed.
Lemma xmul_zero (p : spoly) : peq (xmul 0 p) p.
Proof.
  intros phi. rewrite ev_tmul. assert (E : forall b, mmul (mvar n 0) b = b) by (intros b; apply mono_ext; intros i; rewrite xmul_exp; destruct (Nat.eqb i n); lia).
  rewrite (ev_ext p _ phi) by (intros b; rewrite E; reflexivity). ring.
Qed.
Lemma xmul_sub k (p q : spoly) : peq (xmul k (psub p q)) (psub (xmul k p) (xmul k q)).
Proof. intros phi. rewrite ev_tmul. unfold psub, padd. rewrite !ev_app, !ev_popp, !ev_tmul. ring. Qed.
Lemma xmul_add k (p q : spoly) : peq (xmul k (padd p q)) (padd (xmul k p) (xmul k q)).
Proof. intros phi. rewrite ev_tmul. unfold padd. rewrite !ev_app, !ev_tmul. ring. Qed.

(** polynomials whose leading monomials cover those of a set that contains them generate it *)
Lemma cover_generates (Q : list spoly) (P : spoly -> Prop) : (forall p q, P p -> in_ideal Q q -> P (psub p q)) ->
  (forall p p', peq p p' -> P p -> P p') ->
  (forall p m, P p -> LM p m -> exists q l, In q Q /\ LM q l /\ mdiv l m) -> forall p, P p -> in_ideal Q p.
Proof.
  intros Sub Eq Cov p Pp. destruct (some_end lt LW Q p) as (h & S & I). pose proof (steps_ideal lt Q p h S) as Ih.
  assert (Ph : P h). { apply (Eq (psub p (psub p h))); [ring|]. apply Sub; assumption. }
  destruct (zero_or_lm lt LW h) as [Z|(m & Lm)].
  - assert (X : peq p (psub p h)) by (rewrite Z; ring). rewrite X. exact Ih.
  - exfalso. destruct (Cov h m Ph Lm) as (q & l & Iq & Lq & D). apply irreducible_iff in I. exact (I m (proj1 Lm) q l Iq Lq D).
Qed.
Lemma in_F2_l {A B : Type} (R : A -> B -> Prop) l l' x : Forall2 R l l' -> In x l -> exists y, In y l' /\ R x y.
Proof. induction 1 as [|a b l l' H _ IH]; intros I; [destruct I|]. destruct I as [->|I]; [exists b; split; [left; reflexivity|exact H]|]. destruct (IH I) as (y & Iy & Hy). exists y. split; [right; exact Iy|exact Hy]. Qed.
Lemma in_F2_r {A B : Type} (R : A -> B -> Prop) l l' y : Forall2 R l l' -> In y l' -> exists x, In x l /\ R x y.
Proof. induction 1 as [|a b l l' H _ IH]; intros I; [destruct I|]. destruct I as [->|I]; [exists a; split; [left; reflexivity|exact H]|]. destruct (IH I) as (x & Ix & Hx). exists x. split; [right; exact Ix|exact Hx]. Qed.

Section Basis.
Context (G : list spoly) (GB : groebner lt G) (HG : forall g, In g G -> hom g).

(** ** all powers of x_n taken out: the saturation *)
Definition taken_out (g q : spoly) : Prop := exists k, peq g (xmul k q) /\ exists m, coeff q m <> k0 /\ mexp m n = 0.
Lemma taken_lm g q lg : In g G -> taken_out g q -> LM g lg -> exists k l, LM q l /\ mexp l n = 0 /\ lg = mmul (mvar n k) l.
Proof.
  intros I (k & E & m & Nm & Zm) Lg. assert (Hq : hom q) by (apply (xmul_hom k); rewrite <- E; apply HG; exact I).
  destruct (lm_exists lt LW q) as (l & Ll); [intros Z; apply Nm; rewrite Z; reflexivity|]. exists k, l. split; [exact Ll|]. split; [pose proof (lm_last q l m Hq Ll Nm); lia|].
  apply (is_lm_unique lt LW g); [exact Lg|]. rewrite E. apply xmul_lm. exact Ll.
Qed.
Lemma power_in (Q : list spoly) : (forall q, In q Q -> exists k, in_ideal G (xmul k q)) -> forall p, in_ideal Q p -> exists k, in_ideal G (xmul k p).
Proof.
  induction Q as [|q Q IH]; intros H p Hp.
  - exists 0. destruct Hp as (qs & L & E). destruct qs; [|discriminate]. rewrite xmul_zero, E. apply in_ideal_zero.
  - apply in_ideal_cons in Hp as (a & r & Hr & E). destruct (H q (or_introl eq_refl)) as (k1' & Hk). destruct (IH (fun x Hx => H x (or_intror Hx)) r Hr) as (k2 & Hk2).
    exists (k1' + k2). rewrite E, xmul_add. apply in_ideal_add.
    + rewrite Nat.add_comm, <- xmul_xmul. apply in_ideal_tmul.
      assert (X : peq (xmul k1' (pmul a q)) (pmul a (xmul k1' q))) by (rewrite !tmul_pmul; ring). rewrite X. apply in_ideal_mul. exact Hk.
    + rewrite <- xmul_xmul. apply in_ideal_tmul. exact Hk2.
Qed.
Lemma sat_cover Q : Forall2 taken_out G Q -> forall p m, (exists k, in_ideal G (xmul k p)) -> LM p m -> exists q l, In q Q /\ LM q l /\ mdiv l m.
Proof.
  intros HQ p m (k & Hk) Lm. destruct (GB _ _ Hk (xmul_lm k p m Lm)) as (g & lg & Ig & Lg & D). destruct (in_F2_l _ _ _ _ HQ Ig) as (q & Iq & T).
  destruct (taken_lm g q lg Ig T Lg) as (e & l & Ll & Zl & ->). exists q, l. split; [exact Iq|]. split; [exact Ll|].
  intros i. specialize (D i). rewrite !xmul_exp in D. destruct (Nat.eqb_spec i n) as [Ei|N]; [rewrite Ei in *|]; lia.
Qed.
Lemma sat_power Q : Forall2 taken_out G Q -> forall p, in_ideal Q p -> exists k, in_ideal G (xmul k p).
Proof.
  intros HQ. apply power_in. intros q I. destruct (in_F2_r _ _ _ _ HQ I) as (g & Ig & k & E & _). exists k. rewrite <- E. apply in_ideal_gen. exact Ig.
Qed.
Theorem saturation_last Q : Forall2 taken_out G Q -> groebner lt Q /\ forall p, in_ideal Q p <-> exists k, in_ideal G (xmul k p).
Proof.
  intros HQ. split.
  - intros f m Hf Lm. apply (sat_cover Q HQ f m); [apply (sat_power Q HQ); exact Hf|exact Lm].
  - intros p. split; [apply (sat_power Q HQ)|]. apply (cover_generates Q (fun p => exists k, in_ideal G (xmul k p))).
    + intros a b (k & Hk) Hb. destruct (sat_power Q HQ b Hb) as (j & Hj). exists (j + k). rewrite xmul_sub. apply in_ideal_sub; [rewrite <- xmul_xmul; apply in_ideal_tmul; exact Hk|].
      rewrite Nat.add_comm, <- xmul_xmul. apply in_ideal_tmul. exact Hj.
    + intros a b E (k & Hk). exists k. rewrite <- E. exact Hk.
    + apply sat_cover. exact HQ.
Qed.

(** ** one x_n taken out where possible: the quotient by x_n *)
Definition one_out (g q : spoly) : Prop := peq g (xmul 1 q) \/ (peq q g /\ exists m, coeff g m <> k0 /\ mexp m n = 0).
Lemma quo_cover Q : Forall2 one_out G Q -> forall p m, in_ideal G (xmul 1 p) -> LM p m -> exists q l, In q Q /\ LM q l /\ mdiv l m.
Proof.
  intros HQ p m Hp Lm. destruct (GB _ _ Hp (xmul_lm 1 p m Lm)) as (g & lg & Ig & Lg & D). destruct (in_F2_l _ _ _ _ HQ Ig) as (q & Iq & [E|(E & m' & N' & Z')]).
  - destruct (lm_exists lt LW q) as (l & Ll). { intros Z. apply (lm_nonzero lt g lg Lg). rewrite E, Z. intros phi. rewrite ev_tmul. unfold ev. cbn. ring. }
    exists q, l. split; [exact Iq|]. split; [exact Ll|]. assert (X : lg = mmul (mvar n 1) l) by (apply (is_lm_unique lt LW g); [exact Lg|]; rewrite E; apply xmul_lm; exact Ll).
    subst lg. intros i. specialize (D i). rewrite !xmul_exp in D. lia.
  - exists q, lg. split; [exact Iq|]. split; [rewrite E; exact Lg|]. pose proof (lm_last g lg m' (HG g Ig) Lg N') as X.
    intros i. specialize (D i). rewrite xmul_exp in D. destruct (Nat.eqb_spec i n) as [Ei|N]; [rewrite Ei in *|]; lia.
Qed.
Lemma quo_in Q : Forall2 one_out G Q -> forall p, in_ideal Q p -> in_ideal G (xmul 1 p).
Proof.
  intros HQ p (qs & L & E). rewrite E. clear E p.
  assert (H : forall q, In q Q -> in_ideal G (xmul 1 q)).
  { intros q I. destruct (in_F2_r _ _ _ _ HQ I) as (g & Ig & [E|(E & _)]); [rewrite <- E; apply in_ideal_gen; exact Ig|]. rewrite E. apply in_ideal_tmul. apply in_ideal_gen. exact Ig. }
  clear HQ. revert qs L. induction Q as [|q Q IH]; intros [|a qs] L; try discriminate.
  - cbn [lincomb]. assert (X : peq (xmul 1 (@pzero K)) pzero) by reflexivity. rewrite X. apply in_ideal_zero.
  - cbn [lincomb]. rewrite xmul_add. apply in_ideal_add.
    + assert (X : peq (xmul 1 (pmul a q)) (pmul a (xmul 1 q))) by (rewrite !tmul_pmul; ring). rewrite X. apply in_ideal_mul. apply H. left. reflexivity.
    + apply IH; [intros x Hx; apply H; right; exact Hx|cbn in L; lia].
Qed.
Theorem quotient_last Q : Forall2 one_out G Q -> groebner lt Q /\ forall p, in_ideal Q p <-> in_ideal G (xmul 1 p).
Proof.
  intros HQ. split.
  - intros f m Hf Lm. apply (quo_cover Q HQ f m); [apply quo_in with Q; assumption|exact Lm].
  - intros p. split; [apply quo_in; exact HQ|]. apply (cover_generates Q (fun p => in_ideal G (xmul 1 p))).
    + intros a b Ha Hb. rewrite xmul_sub. apply in_ideal_sub; [exact Ha|apply quo_in with Q; assumption].
    + intros a b E Ha. rewrite <- E. exact Ha.
    + apply quo_cover. exact HQ.
Qed.

(** ** x_n set to zero *)
Theorem section_last : groebner lt (pterm k1 (mvar n 1) :: G).
Proof.
  intros f m Hf Lm. set (x := pterm k1 (mvar n 1) : spoly) in *.
  assert (Lx : LM x (mvar n 1)).
  { split; [unfold x; rewrite coeff_pterm; destruct (mono_dec (mvar n 1) (mvar n 1)); [apply (F_1_neq_0 (kth K))|contradiction]|].
    intros m' N. unfold x in N. rewrite coeff_pterm in N. destruct (mono_dec (mvar n 1) m'); [left; congruence|congruence]. }
  destruct (Nat.eq_dec (mexp m n) 0) as [Zm|Nz].
  2:{ exists x, (mvar n 1). split; [left; reflexivity|]. split; [exact Lx|]. intros i. rewrite mvar_exp. destruct (Nat.eqb_spec i n) as [Ei|]; [rewrite Ei|]; lia. }
  apply in_ideal_cons in Hf as (q & h & Hh & E).
  assert (Cx : forall m', mexp m' n = 0 -> coeff f m' = coeff h m').
  { intros m' Z. rewrite E, coeff_add. destruct (kdec (coeff (pmul q x) m') k0) as [Y|N]; [rewrite Y; ring|]. exfalso.
    apply coeff_mul_inv in N as (a & b & -> & _ & N). unfold x in N. rewrite coeff_pterm in N. destruct (mono_dec (mvar n 1) b) as [<-|]; [|congruence].
    rewrite mmul_exp, mvar_exp, Nat.eqb_refl in Z. lia. }
  pose proof (homog_graded mono_dec (tgr n) (tgr_mul n) G HG h (tgr n m) Hh) as Hc.
  assert (Lc : LM (comp mono_dec (tgr n) (tgr n m) h) m).
  { unfold comp. split.
    - rewrite coeff_pfilter. assert (X : isg mono_dec (tgr n) (tgr n m) m = true) by (apply isg_true; reflexivity). rewrite X, <- Cx by exact Zm. apply Lm.
    - intros m' N. rewrite coeff_pfilter in N. destruct (isg mono_dec (tgr n) (tgr n m) m') eqn:X; [|congruence]. apply isg_true in X. apply tgr_iff in X as [T X].
      destruct (Nat.eq_dec (mexp m' n) 0) as [Z'|N']; [apply Lm; rewrite Cx by exact Z'; exact N|].
      right. right. split; [exact T|]. exists n. split; [lia|]. intros i Hi. symmetry. apply X. exact Hi. }
  destruct (GB _ _ Hc Lc) as (g & l & Ig & Lg & D). exists g, l. split; [right; exact Ig|auto].
Qed.
End Basis.
End LastVar.
