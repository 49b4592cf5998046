(** * Elimination ideals, variables of reduced bases, values on the zero set.

    Pure mathematics over [GroebnerSpec]; nothing here mentions the code. *)
From Verif Require Import Base FieldIface MonoSpec PolySpec GroebnerSpec.
From Coq Require Import Ring Field Setoid Morphisms.

Local Open Scope nat_scope.

Section IdealSpec.
Context {K : MathField}.
Add Field Kf19 : (kth K).
Add Ring Pr19 : (@poly_ring K) (setoid (@peq_equiv K) (@poly_ring_ext K)).
Notation spoly := (spoly K).
Implicit Types (p q f g h r : spoly) (m a b l : mono) (G H : list spoly).

(** ** values *)
Lemma peval_add x p q : peval x (padd p q) = kadd (peval x p) (peval x q).
Proof. apply ev_app. Qed.
Lemma peval_mul x p q : peval x (pmul p q) = kmul (peval x p) (peval x q).
Proof.
  unfold peval. rewrite ev_pmul. destruct (mval_multiplicative x) as [_ M].
  rewrite (ev_ext p _ (fun a => kmul (ev q (mval x)) (mval x a))).
  - rewrite ev_scale_fun. ring.
  - intros a. rewrite (ev_ext q _ (fun b => kmul (mval x a) (mval x b))) by (intros b; apply M).
    rewrite ev_scale_fun. ring.
Qed.
Lemma peval_ideal x G f : (forall g, In g G -> peval x g = k0) -> in_ideal G f -> peval x f = k0.
Proof.
  intros H (qs & L & E). unfold peval. rewrite (E (mval x)). fold (peval x (lincomb qs G)). clear E f. revert qs L.
  induction G as [|g G IH]; intros [|q qs] L; simpl in *; try discriminate; try reflexivity.
  rewrite peval_add, peval_mul, (H g) by auto. rewrite IH by auto. ring.
Qed.

(** ** combinations with coefficients in a subring of polynomials, given by a set of monomials *)
Section Sub.
Context (S : mono -> Prop) (S1 : S mone) (SM : forall a b, S a -> S b -> S (mmul a b)) (SD : forall a b, mdiv a b -> S b -> S a).

Definition over p : Prop := forall m, coeff p m <> k0 -> S m.
Definition in_ideal_over G f : Prop := exists qs, length qs = length G /\ Forall over qs /\ peq f (lincomb qs G).

Lemma over_zero : over pzero. Proof. intros m N. exfalso. apply N. reflexivity. Qed.
Lemma over_add p q : over p -> over q -> over (padd p q).
Proof.
  intros Hp Hq m N. rewrite coeff_add in N. destruct (kdec (coeff p m) k0) as [E|X]; [|auto].
  apply Hq. intros Z. apply N. rewrite E, Z. ring.
Qed.
Lemma over_eq p q : peq p q -> over p -> over q.
Proof. intros E H m N. apply H. rewrite E. exact N. Qed.
Lemma over_tmul c a p : S a -> over p -> over (tmul c a p).
Proof. intros Sa H m N. apply coeff_tmul_inv in N as (_ & b & -> & N). auto. Qed.
Lemma over_opp p : over p -> over (popp p).
Proof. intros H m N. apply H. rewrite coeff_opp in N. intros Z. apply N. rewrite Z. ring. Qed.
Lemma over_pterm c a : S a -> over (@pterm K c a).
Proof. intros Sa m N. rewrite coeff_pterm in N. destruct (mono_dec a m) as [<-|]; [exact Sa|congruence]. Qed.
Lemma over_mul p q : over p -> over q -> over (pmul p q).
Proof. intros Hp Hq m N. apply coeff_mul_inv in N as (a & b & -> & Na & Nb). auto. Qed.

Global Instance in_ideal_over_proper G : Proper (peq ==> iff) (in_ideal_over G).
Proof. intros p q E. split; intros (qs & L & O & X); exists qs; repeat split; auto; [rewrite <- E|rewrite E]; exact X. Qed.
Lemma repeat_over n : Forall over (repeat pzero n).
Proof. apply Forall_forall. intros x I. apply repeat_spec in I as ->. exact over_zero. Qed.
Lemma over_ideal_zero G : in_ideal_over G pzero.
Proof. exists (repeat pzero (length G)). rewrite repeat_length, lincomb_zero. split; [reflexivity|]. split; [apply repeat_over|reflexivity]. Qed.
Lemma over_lincomb_add G : forall qs qs', length qs = length G -> length qs' = length G -> Forall over qs -> Forall over qs' ->
  exists rs, length rs = length G /\ Forall over rs /\ peq (padd (lincomb qs G) (lincomb qs' G)) (lincomb rs G).
Proof.
  induction G as [|g G IH]; intros [|q qs] [|q' qs'] L L' O O'; simpl in *; try discriminate.
  - exists []. split; [reflexivity|]. split; [constructor|]. simpl. ring.
  - inversion O; inversion O'; subst. destruct (IH qs qs') as (rs & Lr & Or & E); [lia|lia|assumption..|].
    exists (padd q q' :: rs). simpl. split; [lia|]. split; [constructor; [apply over_add; assumption|exact Or]|].
    rewrite <- E. ring.
Qed.
Lemma over_ideal_add G p q : in_ideal_over G p -> in_ideal_over G q -> in_ideal_over G (padd p q).
Proof.
  intros (qs & L & O & E) (qs' & L' & O' & E'). destruct (over_lincomb_add G qs qs' L L' O O') as (rs & Lr & Or & Er).
  exists rs. split; [exact Lr|]. split; [exact Or|]. rewrite E, E'. exact Er.
Qed.
Lemma over_ideal_gen G g c a : In g G -> S a -> in_ideal_over G (tmul c a g).
Proof.
  intros I Sa. induction G as [|h G IH]; simpl in I; [contradiction|]. destruct I as [->|I].
  - exists (pterm c a :: repeat pzero (length G)). simpl. rewrite repeat_length, lincomb_zero, tmul_pmul.
    split; [reflexivity|]. split; [constructor; [apply over_pterm; exact Sa|apply repeat_over]|]. ring.
  - destruct (IH I) as (qs & L & O & E). exists (pzero :: qs). simpl. split; [lia|].
    split; [constructor; [exact over_zero|exact O]|]. rewrite <- E. ring.
Qed.
Lemma over_ideal_in G f : in_ideal_over G f -> in_ideal G f.
Proof. intros (qs & L & _ & E). exists qs. auto. Qed.
Lemma over_ideal_over G f : (forall g, In g G -> over g) -> in_ideal_over G f -> over f.
Proof.
  intros HG (qs & L & O & E). apply (over_eq (lincomb qs G)); [symmetry; exact E|]. clear E f. revert qs L O.
  induction G as [|g G IH]; intros [|q qs] L O; simpl in *; try discriminate; try apply over_zero.
  inversion O; subst. apply over_add; [apply over_mul; auto|]. apply IH; auto.
Qed.

(** ** elimination: for an order in which everything below a monomial of [S] is in [S], those elements
    of a Groebner basis that are over [S] are a Groebner basis of the elements of the ideal over [S] *)
Context (lt : mono -> mono -> Prop) (L : mono_order_laws lt) (SL : forall a b, lt a b -> S b -> S a).
Notation LM := (is_lm lt).

Lemma lm_over g l : LM g l -> S l -> over g.
Proof. intros [_ H] Sl m N. destruct (H m N) as [->|X]; [exact Sl|exact (SL _ _ X Sl)]. Qed.

Theorem elimination G H : groebner lt G -> (forall g, In g G -> over g -> In g H) ->
  forall f, in_ideal G f -> over f -> (forall h, In h H -> in_ideal G h) -> in_ideal_over H f.
Proof.
  intros GB HG f If Of HI.
  assert (VH : exists n, svars n f /\ forall h, In h H -> svars n h).
  { destruct (svars_exists f) as (n & Vf).
    assert (X : exists n', forall h, In h H -> svars n' h).
    { clear. induction H as [|h H (n & IH)]; [exists 0; intros h []|]. destruct (svars_exists h) as (n' & V).
      exists (Nat.max n n'). intros x [->|I]; [apply (svars_le n')|apply (svars_le n)]; auto; lia. }
    destruct X as (n' & V). exists (Nat.max n n'). split; [apply (svars_le n); [lia|exact Vf]|].
    intros h I. apply (svars_le n'); [lia|auto]. }
  destruct VH as (n & Vf & VH).
  assert (X : forall m, mvars n m -> forall f, svars n f -> in_ideal G f -> over f -> LM f m -> in_ideal_over H f).
  { intros m. induction (lt_wf lt L n m) as [m _ IH]. clear f If Of Vf. intros Vm f Vf If Of Hm.
    destruct (GB f m If Hm) as (h & l & Ih & Lh & D).
    assert (Sm : S m) by (apply Of; apply Hm). assert (Sl : S l) by (apply (SD l m); assumption).
    assert (IhH : In h H) by (apply HG; [exact Ih|apply (lm_over h l Lh Sl)]).
    apply mdiv_iff in D as (a & Ea). rewrite mmul_comm in Ea.
    assert (Sa : S a) by (apply (SD a m); [rewrite Ea; apply mdiv_mul|exact Sm]).
    set (r := psub f (tmul (kdiv (coeff f m) (coeff h l)) a h)).
    assert (Er : peq f (padd r (tmul (kdiv (coeff f m) (coeff h l)) a h))) by (unfold r; ring).
    rewrite Er. apply over_ideal_add; [|apply over_ideal_gen; assumption].
    assert (Va : mvars n a) by (rewrite Ea in Vm; apply mvars_mul in Vm; apply Vm).
    destruct (zero_or_lm lt L r) as [Z|(m' & Hm')]; [rewrite Z; apply over_ideal_zero|].
    assert (Vr : svars n r) by (apply svars_sub; auto; apply svars_tmul; auto).
    apply (IH m'); auto.
    - split; [apply (is_lm_vars lt n r); auto|]. split; [exact Vm|]. apply (reduce_lm lt L f h l a m); auto. apply Hm'.
    - apply (is_lm_vars lt n r); auto.
    - apply in_ideal_sub; auto. apply in_ideal_tmul. apply in_ideal_gen. exact Ih.
    - apply over_add; [exact Of|]. apply over_opp. apply over_tmul; [exact Sa|]. apply (lm_over h l Lh Sl). }
  destruct (zero_or_lm lt L f) as [Z|(m & Hm)]; [rewrite Z; apply over_ideal_zero|].
  apply (X m); auto. apply (is_lm_vars lt n f); auto.
Qed.
End Sub.

(** ** coefficient of a power of one variable *)
Section Coef.
Context (i : nat).
Definition mstrip m : mono := mquo m (mvar i (mexp m i)).
Lemma mvar_exp j k n : mexp (mvar j k) n = if Nat.eqb n j then k else 0.
Proof.
  unfold mvar. rewrite canon_exp. unfold expo. destruct (Nat.eqb_spec n j) as [->|N].
  - rewrite app_nth2 by (rewrite repeat_length; lia). rewrite repeat_length, Nat.sub_diag. reflexivity.
  - destruct (lt_dec n j) as [X|X].
    + rewrite app_nth1 by (rewrite repeat_length; lia). apply nth_repeat.
    + rewrite nth_overflow; [reflexivity|]. rewrite app_length, repeat_length. simpl. lia.
Qed.
Lemma mstrip_exp m n : mexp (mstrip m) n = if Nat.eqb n i then 0 else mexp m n.
Proof. unfold mstrip. rewrite mquo_exp, mvar_exp. destruct (Nat.eqb_spec n i) as [->|]; lia. Qed.
Lemma mstrip_mul a b : mexp b i = 0 -> mstrip (mmul a b) = mmul (mstrip a) b.
Proof.
  intros E. apply mono_ext. intros n. rewrite mstrip_exp, !mmul_exp, mstrip_exp. destruct (Nat.eqb_spec n i) as [->|]; lia.
Qed.
Lemma mstrip_back m : mmul (mstrip m) (mvar i (mexp m i)) = m.
Proof. apply mono_ext. intros n. rewrite mmul_exp, mstrip_exp, mvar_exp. destruct (Nat.eqb_spec n i) as [->|]; lia. Qed.

(** coefficient of the e-th power of the variable *)
Definition pcoef (e : nat) p : spoly :=
  map (fun t => (fst t, mstrip (snd t))) (filter (fun t => Nat.eqb (mexp (snd t) i) e) p).
Lemma ev_pcoef e p phi : ev (pcoef e p) phi = ev p (fun m => if Nat.eqb (mexp m i) e then phi (mstrip m) else k0).
Proof.
  unfold pcoef. induction p as [|[c m] p IH]; simpl; [reflexivity|]. destruct (Nat.eqb (mexp m i) e); simpl; rewrite IH; [reflexivity|ring].
Qed.
Global Instance pcoef_proper e : Proper (peq ==> peq) (pcoef e).
Proof. intros p q E phi. rewrite !ev_pcoef. apply E. Qed.
Lemma pcoef_add e p q : peq (pcoef e (padd p q)) (padd (pcoef e p) (pcoef e q)).
Proof. intros phi. unfold padd. rewrite ev_pcoef, !ev_app, !ev_pcoef. reflexivity. Qed.
Lemma ev_ext_in p phi psi : (forall m, In m (map snd p) -> phi m = psi m) -> @ev K p phi = ev p psi.
Proof.
  induction p as [|[c m] p IH]; intros E; simpl; [reflexivity|]. rewrite (E m) by (left; reflexivity).
  rewrite IH; [reflexivity|]. intros x I. apply E. right. exact I.
Qed.
Definition without p : Prop := forall m, coeff p m <> k0 -> mexp m i = 0.
Lemma pcoef_mul e q g : without g -> peq (pcoef e (pmul q g)) (pmul (pcoef e q) g).
Proof.
  intros W. destruct (pnorm g) as (g' & E & N). rewrite <- E. intros phi.
  rewrite ev_pcoef, !ev_pmul, ev_pcoef. apply ev_ext. intros a. destruct (Nat.eqb_spec (mexp a i) e) as [X|X].
  - apply ev_ext_in. intros b I. apply in_map_iff in I as ([c b'] & <- & I). simpl. apply N in I as [C Z].
    assert (B : mexp b' i = 0) by (apply W; congruence). rewrite mmul_exp, B, Nat.add_0_r, (proj2 (Nat.eqb_eq _ _) X).
    rewrite mstrip_mul by exact B. reflexivity.
  - transitivity (ev g' (fun _ => k0)); [|apply ev_zero_fun]. apply ev_ext_in. intros b I. apply in_map_iff in I as ([c b'] & <- & I). simpl. apply N in I as [C Z].
    assert (B : mexp b' i = 0) by (apply W; congruence). rewrite mmul_exp, B, Nat.add_0_r.
    rewrite (proj2 (Nat.eqb_neq _ _) X). reflexivity.
Qed.
Lemma pcoef_ideal e G f : (forall g, In g G -> without g) -> in_ideal G f -> in_ideal G (pcoef e f).
Proof.
  intros W (qs & L & E). exists (map (pcoef e) qs). split; [rewrite map_length; exact L|]. rewrite E. clear E f. revert qs L.
  induction G as [|g G IH]; intros [|q qs] L; simpl in *; try discriminate; try reflexivity.
  rewrite pcoef_add, pcoef_mul by auto. rewrite IH by auto. reflexivity.
Qed.
Lemma coeff_pcoef e p m : coeff (pcoef e p) m = if Nat.eqb (mexp m i) 0 then coeff p (mmul m (mvar i e)) else k0.
Proof.
  unfold coeff. rewrite ev_pcoef. destruct (Nat.eqb_spec (mexp m i) 0) as [Z|N].
  - apply ev_ext. intros x. unfold delta. destruct (Nat.eqb_spec (mexp x i) e) as [X|X].
    + destruct (mono_dec (mstrip x) m) as [Y|Y]; destruct (mono_dec x (mmul m (mvar i e))) as [W|W]; auto; exfalso.
      * apply W. rewrite <- Y, <- X. symmetry. apply mstrip_back.
      * apply Y. rewrite W, mmul_comm. rewrite mstrip_mul by exact Z. apply mono_ext. intros n. rewrite mmul_exp, mstrip_exp, mvar_exp.
        destruct (Nat.eqb_spec n i) as [->|]; lia.
    + destruct (mono_dec x (mmul m (mvar i e))) as [W|W]; auto. exfalso. apply X. rewrite W, mmul_exp, mvar_exp, Nat.eqb_refl. lia.
  - transitivity (ev p (fun _ => k0)); [|apply ev_zero_fun]. apply ev_ext. intros x. unfold delta. destruct (Nat.eqb (mexp x i) e); auto.
    destruct (mono_dec (mstrip x) m) as [Y|Y]; auto. exfalso. apply N. rewrite <- Y, mstrip_exp, Nat.eqb_refl. reflexivity.
Qed.

(** the elements of an inter-reduced Groebner basis involve no variable that the generators do not involve *)
Context (lt : mono -> mono -> Prop) (L : mono_order_laws lt).
Notation LM := (is_lm lt).
Theorem reduced_variables G H : groebner lt H -> inter_reduced lt H -> (forall f, in_ideal H f <-> in_ideal G f) ->
  (forall g, In g G -> without g) -> forall h, In h H -> without h.
Proof.
  intros GB R EI W h Ih.
  destruct (zero_or_lm lt L h) as [Z|(l & Lh)]; [exfalso; exact (proj1 R h Ih Z)|].
  assert (Id : in_ideal G h) by (apply EI; apply in_ideal_gen; exact Ih).
  intros m Nm. destruct (Nat.eq_dec (mexp m i) 0) as [|E]; [assumption|exfalso].
  set (e := mexp m i).
  assert (I' : in_ideal H (pcoef e h)) by (apply EI; apply pcoef_ideal; assumption).
  destruct (zero_or_lm lt L (pcoef e h)) as [Z|(x & Lx)].
  { apply Nm. rewrite <- (mstrip_back m). fold e. pose proof (coeff_pcoef e h (mstrip m)) as X.
    rewrite Z, mstrip_exp, !Nat.eqb_refl in X. rewrite <- X. reflexivity. }
  destruct (GB _ x I' Lx) as (h' & l' & Ih' & Lh' & D).
  pose proof (proj1 Lx) as N. rewrite coeff_pcoef in N. destruct (Nat.eqb_spec (mexp x i) 0) as [Zx|]; [|congruence].
  set (y := mmul x (mvar i e)) in *. assert (Dy : mdiv l' y) by (eapply mdiv_trans; [exact D|apply mdiv_mul]).
  destruct (mono_dec y l) as [Ey|Ny].
  - assert (h' = h) by (apply (inter_reduced_lm lt H h' h l' l); auto; rewrite <- Ey; exact Dy). subst h'.
    assert (l' = l) by (eapply (is_lm_unique lt L); eassumption). subst l'.
    specialize (D i). rewrite <- Ey in D. unfold y in D. rewrite mmul_exp, mvar_exp, Nat.eqb_refl in D. unfold e in D. lia.
  - exact (inter_reduced_tail lt L H h l y R Ih Lh N Ny h' l' Ih' Lh' Dy).
Qed.
End Coef.
End IdealSpec.
