(** * Gradings: homogeneous polynomials and homogeneous ideals.

    Pure mathematics; nothing here mentions the code. *)
From Coq Require Import List ZArith Arith Lia Ring Field Setoid Morphisms.
From Verif Require Import Base FieldIface MonoSpec PolySpec GroebnerSpec DivSpec.
Import ListNotations.
Local Open Scope nat_scope.

(** ** weighted degrees *)
Fixpoint wdeg (w : nat -> Z) (l : list nat) : Z :=
  match l with [] => 0%Z | x :: l' => (w O * Z.of_nat x + wdeg (fun i => w (S i)) l')%Z end.
Lemma wdeg_trim w l : wdeg w (ltrim l) = wdeg w l.
Proof.
  revert w. induction l as [|x l IH]; intros w; [reflexivity|]. cbn [ltrim wdeg]. rewrite <- IH. destruct (ltrim l) as [|y l']; [|reflexivity].
  destruct x; cbn [Nat.eqb wdeg]; ring.
Qed.
Lemma wdeg_nil_zip w l : wdeg w (map (fun y => 0 + y) l) = wdeg w l.
Proof. revert w. induction l as [|x l IH]; intros w; [reflexivity|]. cbn [map wdeg]. rewrite IH. reflexivity. Qed.
Lemma wdeg_zip w a b : wdeg w (lzip Nat.add a b) = (wdeg w a + wdeg w b)%Z.
Proof.
  revert w b. induction a as [|x a IH]; intros w b.
  - cbn [lzip wdeg]. change (map (Nat.add 0) b) with (map (fun y => 0 + y) b). rewrite wdeg_nil_zip. lia.
  - destruct b as [|y b]; cbn [lzip wdeg]; rewrite IH; cbn [wdeg]; lia.
Qed.
Definition mwdeg (w : nat -> Z) (m : mono) : Z := wdeg w (mlist m).
Lemma mwdeg_canon w l : mwdeg w (canon l) = wdeg w l.
Proof. apply wdeg_trim. Qed.
Lemma mwdeg_mul w a b : mwdeg w (mmul a b) = (mwdeg w a + mwdeg w b)%Z.
Proof. unfold mmul. rewrite mwdeg_canon. apply wdeg_zip. Qed.

Section Grade.
Context {K : MathField}.
Add Field Kf33 : (kth K).
Add Ring Pr33 : (@poly_ring K) (setoid (@peq_equiv K) (@poly_ring_ext K)).
Notation spoly := (spoly K).
Implicit Types (p q f g h r : spoly) (m a b l : mono).

(** ** the part of a polynomial on some of the monomials *)
Definition pfilter (P : mono -> bool) p : spoly := filter (fun t => P (snd t)) p.
Lemma coeff_pfilter P p m : coeff (pfilter P p) m = if P m then coeff p m else k0.
Proof.
  induction p as [|[c a] p IH]; [cbn; destruct (P m); reflexivity|]. unfold pfilter. cbn [filter snd]. fold (pfilter P p).
  destruct (P a) eqn:E; rewrite ?coeff_cons, IH; destruct (mono_dec a m) as [->|]; rewrite ?E; destruct (P m); try congruence; ring.
Qed.
Global Instance pfilter_proper P : Proper (peq ==> peq) (pfilter P).
Proof. intros p q E. apply peq_coeff. intros m. rewrite !coeff_pfilter, E. reflexivity. Qed.
Lemma pfilter_add P p q : peq (pfilter P (padd p q)) (padd (pfilter P p) (pfilter P q)).
Proof. apply peq_coeff. intros m. rewrite coeff_add, !coeff_pfilter, coeff_add. destruct (P m); ring. Qed.
Lemma pfilter_all P p : (forall m, coeff p m <> k0 -> P m = true) -> peq (pfilter P p) p.
Proof.
  intros H. apply peq_coeff. intros m. rewrite coeff_pfilter. destruct (P m) eqn:E; [reflexivity|].
  destruct (kdec (coeff p m) k0) as [Z|N]; [auto|]. rewrite (H m N) in E. discriminate E.
Qed.
Lemma pfilter_none P p : (forall m, coeff p m <> k0 -> P m = false) -> peq (pfilter P p) pzero.
Proof.
  intros H. apply peq_coeff. intros m. rewrite coeff_pfilter. destruct (P m) eqn:E; [|reflexivity].
  destruct (kdec (coeff p m) k0) as [Z|N]; [auto|]. rewrite (H m N) in E. discriminate E.
Qed.

(** ** gradings *)
Context {D : Type} (Ddec : forall x y : D, {x = y} + {x <> y}) (gr : mono -> D).
Context (gr_mul : forall a b c, gr a = gr b -> gr (mmul c a) = gr (mmul c b)).
Definition isg (d : D) m : bool := if Ddec (gr m) d then true else false.
Definition comp (d : D) p : spoly := pfilter (isg d) p.
Definition homog p : Prop := forall m m', coeff p m <> k0 -> coeff p m' <> k0 -> gr m = gr m'.
Global Instance homog_proper : Proper (peq ==> iff) homog.
Proof. intros p q E. split; intros H m m'; [rewrite <- !E|rewrite !E]; apply H. Qed.
Lemma isg_true d m : isg d m = true <-> gr m = d.
Proof. unfold isg. destruct (Ddec (gr m) d); split; congruence. Qed.
Lemma isg_false d m : isg d m = false <-> gr m <> d.
Proof. unfold isg. destruct (Ddec (gr m) d); split; congruence. Qed.
Lemma comp_homog d p : homog (comp d p).
Proof.
  intros m m'. unfold comp. rewrite !coeff_pfilter. destruct (isg d m) eqn:E; [|intros X; contradiction X; reflexivity].
  destruct (isg d m') eqn:E'; [|intros _ X; contradiction X; reflexivity]. apply isg_true in E. apply isg_true in E'. congruence.
Qed.

(** a component of a multiple of a homogeneous polynomial *)
Lemma comp_pmul d q g l : homog g -> coeff g l <> k0 -> peq (comp d (pmul q g)) (pmul (pfilter (fun a => isg d (mmul a l)) q) g).
Proof.
  intros H L. unfold comp. induction q as [|[c a] q IH]; [reflexivity|].
  assert (E : peq (pmul ((c, a) :: q) g) (padd (tmul c a g) (pmul q g))) by reflexivity. rewrite E, pfilter_add, IH.
  assert (T : forall m, coeff (tmul c a g) m <> k0 -> gr m = gr (mmul a l)).
  { intros m N. apply coeff_tmul_inv in N as (_ & b & -> & N). apply gr_mul. apply H; assumption. }
  unfold pfilter at 3. cbn [filter snd]. destruct (isg d (mmul a l)) eqn:I.
  - apply isg_true in I. rewrite (pfilter_all (isg d) (tmul c a g)); [reflexivity|]. intros m N. apply isg_true. rewrite (T m N). exact I.
  - apply isg_false in I. rewrite (pfilter_none (isg d) (tmul c a g)); [fold (pfilter (fun a => isg d (mmul a l)) q); ring|].
    intros m N. apply isg_false. rewrite (T m N). exact I.
Qed.
Lemma comp_pmul_ex d q g : homog g -> exists q', peq (comp d (pmul q g)) (pmul q' g) /\
  (forall a, coeff q' a <> k0 -> coeff q a <> k0) /\ (peq g pzero -> peq q' pzero) /\
  (forall a b, coeff q' a <> k0 -> coeff g b <> k0 -> gr (mmul a b) = d).
Proof.
  intros H. destruct (peq_zero_dec g) as [Z|(l & L)].
  - exists pzero. split; [|split; [intros a N; contradiction N; reflexivity|split; [reflexivity|intros a b N; contradiction N; reflexivity]]].
    unfold comp. rewrite Z. assert (E : peq (pmul q pzero) pzero) by ring. rewrite E. reflexivity.
  - exists (pfilter (fun a => isg d (mmul a l)) q). split; [apply comp_pmul; assumption|]. split; [|split].
    + intros a. rewrite coeff_pfilter. destruct (isg d (mmul a l)); [auto|intros X; contradiction X; reflexivity].
    + intros Z. exfalso. apply L. rewrite Z. reflexivity.
    + intros a b. rewrite coeff_pfilter. destruct (isg d (mmul a l)) eqn:E; [|intros X; contradiction X; reflexivity].
      intros _ Nb. apply isg_true in E. rewrite <- E. apply gr_mul. apply H; assumption.
Qed.

(** an ideal with homogeneous generators contains the components of its elements *)
Definition graded (G : list spoly) : Prop := forall f d, in_ideal G f -> in_ideal G (comp d f).
Lemma homog_graded (G : list spoly) : (forall g, In g G -> homog g) -> graded G.
Proof.
  intros H f d (qs & Len & E). unfold comp. rewrite E. clear f E. revert qs Len. induction G as [|g G IH]; intros [|q qs] Len; try discriminate.
  - apply in_ideal_zero.
  - cbn [lincomb]. rewrite pfilter_add. apply in_ideal_add.
    + destruct (comp_pmul_ex d q g (H g (or_introl eq_refl))) as (q' & E & _). unfold comp in E. rewrite E. apply in_ideal_mul. apply in_ideal_gen. left. reflexivity.
    + apply (in_ideal_sub_ideal G); [intros x I; apply in_ideal_gen; right; exact I|]. apply IH; [intros x I; apply H; right; exact I|]. injection Len as Len. exact Len.
Qed.

Section Order.
Context (lt : mono -> mono -> Prop) (LW : mono_order_laws lt).
Notation LM := (is_lm lt).

(** the reduced Groebner basis of such an ideal is homogeneous *)
Lemma graded_reduced (G : list spoly) : groebner lt G -> inter_reduced lt G -> graded G -> forall g, In g G -> homog g.
Proof.
  intros GB [NZ IR] GR g I. destruct (In_nth_error _ _ I) as (i & Ei).
  destruct (lm_exists lt LW g) as (l & Ll); [intros Z; exact (NZ g I Z)|].
  assert (Z : peq (psub g (comp (gr l) g)) pzero).
  { apply (reduced_ideal_zero lt LW G); [exact GB| |].
    - apply in_ideal_sub; [apply in_ideal_gen; exact I|apply GR; apply in_ideal_gen; exact I].
    - intros m N h l' Ih Lh Dv. rewrite coeff_sub in N. unfold comp in N. rewrite coeff_pfilter in N.
      destruct (isg (gr l) m) eqn:E; [apply N; ring|]. apply isg_false in E.
      assert (Nm : coeff g m <> k0) by (intros X; apply N; rewrite X; ring).
      destruct (In_nth_error _ _ Ih) as (j & Ej). destruct (Nat.eq_dec i j) as [->|Nij].
      + rewrite Ei in Ej. injection Ej as <-. rewrite (is_lm_unique lt LW g l' l Lh Ll) in Dv. apply E. f_equal.
        apply (mle_antisym lt LW); [apply Ll; exact Nm|apply (mdiv_mle lt LW); exact Dv].
      + exact (IR i j g h l' m Nij Ei Ej Lh Nm Dv). }
  assert (E : peq g (comp (gr l) g)).
  { assert (X : peq g (padd (psub g (comp (gr l) g)) (comp (gr l) g))) by ring. rewrite X at 1. rewrite Z. ring. }
  rewrite E. apply comp_homog.
Qed.

(** division of a homogeneous polynomial by homogeneous divisors *)
Lemma comp_lincomb d (gs : list spoly) : (forall g, In g gs -> homog g) -> forall qs, length qs = length gs ->
  exists qs', length qs' = length gs /\ peq (comp d (lincomb qs gs)) (lincomb qs' gs) /\
    forall i q', nth_error qs' i = Some q' -> exists q g, nth_error qs i = Some q /\ nth_error gs i = Some g /\
      (forall a, coeff q' a <> k0 -> coeff q a <> k0) /\ (peq g pzero -> peq q' pzero) /\
      (forall a b, coeff q' a <> k0 -> coeff g b <> k0 -> gr (mmul a b) = d).
Proof.
  induction gs as [|g gs IH]; intros H [|q qs] Len; try discriminate.
  - exists []. split; [reflexivity|]. split; [reflexivity|]. intros [|i] q' E; discriminate E.
  - destruct (IH (fun x I => H x (or_intror I)) qs) as (qs' & Len' & E' & S'); [injection Len as Len; exact Len|].
    destruct (comp_pmul_ex d q g (H g (or_introl eq_refl))) as (q' & E & S). exists (q' :: qs'). split; [cbn; lia|]. split.
    + cbn [lincomb]. unfold comp in *. rewrite pfilter_add, E, E'. reflexivity.
    + intros [|i] x X; cbn [nth_error] in X.
      * injection X as <-. exists q, g. split; [reflexivity|]. split; [reflexivity|exact S].
      * exact (S' i x X).
Qed.
Lemma graded_division d f (gs qs : list spoly) r : (forall g, In g gs -> homog g) -> (forall m, coeff f m <> k0 -> gr m = d) ->
  division lt f gs qs r ->
  (forall m, coeff r m <> k0 -> gr m = d) /\
  forall i q g a b, nth_error qs i = Some q -> nth_error gs i = Some g -> coeff q a <> k0 -> coeff g b <> k0 -> gr (mmul a b) = d.
Proof.
  intros H Hf Dv. destruct (comp_lincomb d gs H qs (dv_len _ _ _ _ _ Dv)) as (qs' & Len' & E' & S').
  assert (Dv' : division lt f gs qs' (comp d r)).
  { constructor.
    - exact Len'.
    - rewrite <- E'. unfold comp. rewrite <- pfilter_add, <- (dv_eq _ _ _ _ _ Dv). symmetry. apply pfilter_all. intros m N. apply isg_true. apply Hf. exact N.
    - intros m N. unfold comp in N. rewrite coeff_pfilter in N. destruct (isg d m); [|contradiction N; reflexivity]. apply (dv_red _ _ _ _ _ Dv). exact N.
    - destruct (dv_first _ _ _ _ _ Dv) as [A B]. split.
      + intros i j q gi gj li lj a Hq Hi Hj Li Lj N Lt. destruct (S' i q Hq) as (q0 & g0 & Hq0 & Hg0 & Sub & _).
        apply (A i j q0 gi gj li lj a); auto.
      + intros i q g Hq Hg Z. destruct (S' i q Hq) as (q0 & g0 & Hq0 & Hg0 & _ & Zq & _). apply Zq. rewrite Hg in Hg0. injection Hg0 as <-. exact Z. }
  destruct (division_unique lt LW f gs qs r qs' (comp d r) Dv Dv') as [Uq Ur]. split.
  - intros m N. rewrite Ur in N. unfold comp in N. rewrite coeff_pfilter in N. destruct (isg d m) eqn:E; [apply isg_true; exact E|contradiction N; reflexivity].
  - intros i q g a b Hq Hg Na Nb.
    assert (X : exists q', nth_error qs' i = Some q' /\ peq q q').
    { clear - Uq Hq. revert i q Hq. induction Uq as [|x y l l' P _ IH]; intros [|i] q Hq; try discriminate; [injection Hq as <-; exists y; split; [reflexivity|exact P]|apply IH; exact Hq]. }
    destruct X as (q' & Hq' & E). destruct (S' i q' Hq') as (q0 & g0 & Hq0 & Hg0 & _ & _ & G0). rewrite Hg in Hg0. injection Hg0 as <-.
    apply G0; [rewrite <- E; exact Na|exact Nb].
Qed.
Lemma spol_homog g l h l' : LM g l -> LM h l' -> homog g -> homog h -> forall m, coeff (spol g l h l') m <> k0 -> gr m = gr (mlcm l l').
Proof.
  intros Lg Lh Hg Hh m N. unfold spol in N. rewrite coeff_sub in N.
  assert (T : forall p x c, LM p x -> homog p -> mdiv x (mlcm l l') -> coeff (tmul c (mquo (mlcm l l') x) p) m <> k0 -> gr m = gr (mlcm l l')).
  { intros p x c Lp Hp Dx X. apply coeff_tmul_inv in X as (_ & b & -> & Nb). rewrite <- (mmul_quo x (mlcm l l') Dx) at 2. rewrite (mmul_comm x). apply gr_mul.
    apply Hp; [exact Nb|apply Lp]. }
  destruct (kdec (coeff (tmul (kinv (coeff g l)) (mquo (mlcm l l') l) g) m) k0) as [Z|X].
  - eapply (T h l'); [exact Lh|exact Hh|apply mdiv_lcm_r|]. intros Y. apply N. rewrite Z, Y. ring.
  - eapply (T g l); [exact Lg|exact Hg|apply mdiv_lcm_l|]. exact X.
Qed.
End Order.
End Grade.

(** ** the grading by weights, up to a modulus (0: no reduction) *)
Definition grade (k : Z) (w : nat -> Z) (m : mono) : Z := if (k =? 0)%Z then mwdeg w m else (mwdeg w m mod k)%Z.
Lemma grade_eq k w a b : grade k w a = grade k w b <-> (k | mwdeg w a - mwdeg w b)%Z.
Proof.
  unfold grade. destruct (Z.eqb_spec k 0) as [->|N].
  - split; [intros E; exists 0%Z; lia|intros [x E]; lia].
  - rewrite <- (Z.mod_divide (mwdeg w a - mwdeg w b) k N). split; intros E.
    + rewrite Zminus_mod, E, Z.sub_diag. apply Z.mod_0_l. exact N.
    + apply Z.mod_divide in E as [x E]; [|exact N]. replace (mwdeg w a) with (mwdeg w b + x * k)%Z by lia. apply Z.mod_add. exact N.
Qed.
Lemma grade_mul k w a b c : grade k w a = grade k w b -> grade k w (mmul c a) = grade k w (mmul c b).
Proof. rewrite !grade_eq, !mwdeg_mul. replace (mwdeg w c + mwdeg w a - (mwdeg w c + mwdeg w b))%Z with (mwdeg w a - mwdeg w b)%Z by lia. auto. Qed.
