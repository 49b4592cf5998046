(** * Properties C22-C29: terms and polynomials over an exact field.

    [coeff (ip FS p) m] is the sum of the values of the coefficients of those terms of [p] whose
    multidegree is the monomial [m]; [pwf FS p] ("clean") says that no coefficient is zero, that the
    multidegrees are canonical u8 vectors and that they are pairwise distinct. *)
From Verif Require Import Base BaseLemmas IntModel RatModel FieldIface RatProofs MDegModel PolyModel MonoSpec MDegProofs
  PolySpec PolyProofs.
From Coq Require Import Ring Field Setoid Morphisms.

Local Open Scope nat_scope.

Section PropPoly.
Context {F : FieldImpl} {K : MathField} (FS : FieldSpec F K).
Add Field Kf3 : (kth K).
Add Ring Pr3 : (@poly_ring K) (setoid (@peq_equiv K) (@poly_ring_ext K)).
Notation term := (term F).
Notation poly := (poly F).
Notation coef_at p m := (coeff (ip FS p) m).
Notation tcoef_at t m := (coeff (it FS t) m).
Notation clean := (pwf FS).
Notation okterm := (twf0 FS).

(** what [coef_at] means, spelled out *)
Lemma coef_at_def (p : poly) m :
  coef_at p m = ksum (map (fun t => den FS (coef t)) (filter (fun t => if mono_dec (canon (tdeg t)) m then true else false) p)).
Proof.
  induction p as [|t p IH]; [reflexivity|].
  rewrite ip_cons. rewrite coeff_add, IH. unfold it. rewrite coeff_pterm. unfold ksum. simpl.
  destruct (mono_dec (canon (tdeg t)) m); simpl; [reflexivity|ring].
Qed.

(** ** C22 *)
Theorem C22_term_new : forall c d, fwf FS c -> mwf d ->
  okterm (term_new c d) /\
  (den FS c <> k0 -> term_new c d = mkterm c d) /\
  (den FS c = k0 -> term_new c d = term_zero) /\
  (forall m, tcoef_at (term_new c d) m = if mono_dec (canon d) m then den FS c else k0).
Proof.
  intros c d Hc Hd. destruct (term_new_ok FS c d Hc Hd) as [W E]. split; [exact W|].
  split; [|split].
  - intros N. unfold term_new. destruct (feqb c f0) eqn:X; [|reflexivity]. apply (eqb0 _ _ FS) in X; [contradiction|exact Hc].
  - intros Z. unfold term_new. apply (eqb0 _ _ FS) in Z; [|exact Hc]. rewrite Z. reflexivity.
  - intros m. rewrite E, coeff_pterm. reflexivity.
Qed.

Theorem C22_from_coef_and_term :
  (forall c, fwf FS c -> clean (poly_from_coef c) /\
     forall m, coef_at (poly_from_coef c) m = if mono_dec mone m then den FS c else k0) /\
  (forall t, okterm t -> clean (poly_from_term t) /\ forall m, coef_at (poly_from_term t) m = tcoef_at t m).
Proof.
  split.
  - intros c Hc. destruct (poly_from_coef_ok FS c Hc) as [W E]. split; [exact W|]. intros m. rewrite E, coeff_pterm. reflexivity.
  - intros t Ht. destruct (poly_from_term_ok FS t Ht) as [W E]. split; [exact W|]. intros m. rewrite E. reflexivity.
Qed.

Theorem C22_var_one_zero :
  (forall i k, k <= 255 -> clean (poly_var (F:=F) i k) /\
     forall m, coef_at (poly_var i k) m = if mono_dec (mvar i k) m then k1 else k0) /\
  (clean (poly_one (F:=F)) /\ forall m, coef_at poly_one m = if mono_dec mone m then k1 else k0) /\
  (clean (poly_zero (F:=F)) /\ forall m, coef_at poly_zero m = k0).
Proof.
  split; [|split].
  - intros i k H. destruct (term_var_ok FS i k H) as [W E]. split; [apply pwf_single; exact W|].
    intros m. unfold poly_var, poly_term. rewrite ip_single, E, coeff_pterm. reflexivity.
  - split; [apply pwf_single; apply term_one_wf|]. intros m. unfold poly_one, poly_term.
    rewrite ip_single, it_term_one. apply coeff_pterm.
  - split; [apply pwf_nil|]. reflexivity.
Qed.

(** Polynomial::new removes exactly the zero terms and does not merge *)
Theorem C22_poly_new : forall ts, Forall okterm ts ->
  (forall m, coef_at (poly_new ts) m = coef_at ts m) /\
  (forall t, In t (poly_new ts) <-> In t ts /\ den FS (coef t) <> k0) /\
  (NoDup (map tdeg ts) -> clean (poly_new ts)).
Proof.
  intros ts H. destruct (poly_new_ok FS ts H) as (W & E & C). split; [intros m; rewrite E; reflexivity|].
  split; [|exact C]. intros t. unfold poly_new. rewrite filter_In. rewrite Forall_forall in H.
  split; intros [I X]; split; auto.
  - apply negb_true_iff in X. apply (is_zero_false FS t (proj1 (H t I))). exact X.
  - apply negb_true_iff. apply (is_zero_false FS t (proj1 (H t I))). exact X.
Qed.

(** ** C23 *)
Theorem C23_add :
  (forall s t, okterm s -> okterm t -> safe (term_add s t) (fun r => clean r /\ forall m, coef_at r m = kadd (tcoef_at s m) (tcoef_at t m))) /\
  (forall p t, clean p -> okterm t -> safe (poly_add_term p t) (fun r => clean r /\ forall m, coef_at r m = kadd (coef_at p m) (tcoef_at t m))) /\
  (forall t p, okterm t -> clean p -> safe (term_add_poly t p) (fun r => clean r /\ forall m, coef_at r m = kadd (tcoef_at t m) (coef_at p m))) /\
  (forall p q, clean p -> clean q -> safe (poly_add p q) (fun r => clean r /\ forall m, coef_at r m = kadd (coef_at p m) (coef_at q m))).
Proof.
  repeat split; intros.
  - eapply safe_mono; [apply (term_add_ok FS); assumption|]. intros r [W E]. split; [exact W|]. intros m. rewrite E. apply coeff_add.
  - eapply safe_mono; [apply (poly_add_term_ok FS); assumption|]. intros r [W E]. split; [exact W|]. intros m. rewrite E. apply coeff_add.
  - eapply safe_mono; [apply (poly_add_term_ok FS); assumption|]. intros r [W E]. split; [exact W|]. intros m. rewrite E, coeff_add. ring.
  - eapply safe_mono; [apply (poly_add_ok FS); [assumption|apply Forall_twf0; apply H0]|]. intros r [W E]. split; [exact W|]. intros m. rewrite E. apply coeff_add.
Qed.

Theorem C23_sub :
  (forall s t, okterm s -> okterm t -> safe (term_sub s t) (fun r => clean r /\ forall m, coef_at r m = ksub (tcoef_at s m) (tcoef_at t m))) /\
  (forall p t, clean p -> okterm t -> safe (poly_sub_term p t) (fun r => clean r /\ forall m, coef_at r m = ksub (coef_at p m) (tcoef_at t m))) /\
  (forall t p, okterm t -> clean p -> safe (term_sub_poly t p) (fun r => clean r /\ forall m, coef_at r m = ksub (tcoef_at t m) (coef_at p m))) /\
  (forall p q, clean p -> clean q -> safe (poly_sub p q) (fun r => clean r /\ forall m, coef_at r m = ksub (coef_at p m) (coef_at q m))).
Proof.
  repeat split; intros.
  - eapply safe_mono; [apply (term_sub_ok FS); assumption|]. intros r [W E]. split; [exact W|]. intros m. rewrite E. apply coeff_sub.
  - eapply safe_mono; [apply (poly_sub_term_ok FS); assumption|]. intros r [W E]. split; [exact W|]. intros m. rewrite E. apply coeff_sub.
  - eapply safe_mono; [apply (term_sub_poly_ok FS); assumption|]. intros r [W E]. split; [exact W|]. intros m. rewrite E. apply coeff_sub.
  - eapply safe_mono; [apply (poly_sub_ok FS); [assumption|apply Forall_twf0; apply H0]|]. intros r [W E]. split; [exact W|]. intros m. rewrite E. apply coeff_sub.
Qed.

Theorem C23_neg :
  (forall t, okterm t -> safe (term_neg t) (fun r => okterm r /\ tdeg r = tdeg t /\ forall m, tcoef_at r m = kopp (tcoef_at t m))) /\
  (forall p, clean p -> safe (poly_neg p) (fun r => clean r /\ map tdeg r = map tdeg p /\ forall m, coef_at r m = kopp (coef_at p m))).
Proof.
  split; intros.
  - eapply safe_mono; [apply (term_neg_ok FS); assumption|]. intros r (W & _ & D & E). split; [exact W|]. split; [exact D|].
    intros m. rewrite E. apply coeff_opp.
  - eapply safe_mono; [apply (poly_neg_ok FS); apply Forall_twf0; apply H|]. intros r (_ & W & D & E). split; [auto|]. split; [exact D|].
    intros m. rewrite E. apply coeff_opp.
Qed.

(** ** C24 *)
(** the textbook product of two term lists: sum over all pairs of terms whose monomials multiply to [m] *)
Definition conv (p q : poly) (m : mono) : K :=
  ksum (map (fun st => kmul (den FS (coef (fst st))) (den FS (coef (snd st))))
    (filter (fun st => if mono_dec (mmul (canon (tdeg (fst st))) (canon (tdeg (snd st)))) m then true else false)
      (list_prod p q))).
Lemma ksum_app (l1 l2 : list K) : ksum (l1 ++ l2) = kadd (ksum l1) (ksum l2).
Proof. unfold ksum. induction l1 as [|x l IH]; simpl; [ring|]. rewrite IH. ring. Qed.
Lemma conv_coeff p q m : coeff (pmul (ip FS p) (ip FS q)) m = conv p q m.
Proof.
  unfold conv. induction p as [|s p IH]; [reflexivity|].
  rewrite ip_cons. simpl list_prod.
  assert (X : peq (pmul (padd (it FS s) (ip FS p)) (ip FS q)) (padd (pmul (it FS s) (ip FS q)) (pmul (ip FS p) (ip FS q)))) by ring.
  rewrite X, coeff_add, IH, filter_app, map_app, ksum_app. f_equal. clear X IH p.
  unfold it. rewrite <- tmul_pmul. induction q as [|t q IH]; [reflexivity|].
  rewrite ip_cons, tmul_add, coeff_add, IH. simpl map. simpl filter.
  assert (Y : coeff (tmul (den FS (coef s)) (canon (tdeg s)) (it FS t)) m =
    if mono_dec (mmul (canon (tdeg s)) (canon (tdeg t))) m then kmul (den FS (coef s)) (den FS (coef t)) else k0).
  { unfold it. rewrite tmul_pmul, pterm_mul, coeff_pterm. reflexivity. }
  rewrite Y. destruct (mono_dec _ m); unfold ksum; simpl; [reflexivity|ring].
Qed.

Theorem C24_mul :
  (forall s t, okterm s -> okterm t -> safe (term_mul Debug s t) (fun r => okterm r /\
     (forall m, tcoef_at r m = conv [s] [t] m))) /\
  (forall p t, clean p -> okterm t -> safe (poly_mul_term Debug p t) (fun r => clean r /\ forall m, coef_at r m = conv p [t] m)) /\
  (forall t p, okterm t -> clean p -> safe (term_mul_poly Debug t p) (fun r => clean r /\ forall m, coef_at r m = conv [t] p m)) /\
  (forall p c, clean p -> fwf FS c -> safe (poly_scale Debug p c) (fun r => clean r /\ forall m, coef_at r m = kmul (den FS c) (coef_at p m))) /\
  (forall p q, clean p -> clean q -> safe (poly_mul Debug p q) (fun r => clean r /\ forall m, coef_at r m = conv p q m)).
Proof.
  split; [|split; [|split; [|split]]].
  - intros s t Hs Ht. eapply safe_mono; [apply (term_mul_ok FS); assumption|]. intros r (W & E & _). split; [exact W|].
    intros m. rewrite <- conv_coeff, !ip_single, E. reflexivity.
  - intros p t Hp Ht. eapply safe_mono; [apply (poly_mul_term_ok FS); [apply Forall_twf0; apply Hp|assumption]|]. intros r (_ & W & E). split; [auto|].
    intros m. rewrite <- conv_coeff, E, ip_single. reflexivity.
  - intros t p Ht Hp. eapply safe_mono; [apply (poly_mul_term_ok FS); [apply Forall_twf0; apply Hp|assumption]|]. intros r (_ & W & E). split; [auto|].
    intros m. rewrite <- conv_coeff, E, ip_single. apply coeff_proper; [ring|reflexivity].
  - intros p c Hp Hc. eapply safe_mono; [apply (poly_scale_ok FS); [apply Forall_twf0; apply Hp|assumption]|]. intros r (_ & W & E). split; [auto|].
    intros m. rewrite E. apply coeff_scale.
  - intros p q Hp Hq. eapply safe_mono; [apply (poly_mul_ok FS); [apply Forall_twf0; apply Hp|assumption]|]. intros r (W & E). split; [exact W|].
    intros m. rewrite <- conv_coeff, E. reflexivity.
Qed.

(** degrees add when terms are multiplied *)
Theorem C24_term_degree : forall s t r, twf FS s -> twf FS t -> term_mul Debug s t = Ok r ->
  den FS (coef r) = kmul (den FS (coef s)) (den FS (coef t)) /\
  forall i, expo (tdeg r) i = expo (tdeg s) i + expo (tdeg t) i.
Proof.
  intros s t r Hs Ht H.
  destruct (safe_val _ _ _ (term_mul_ok FS s t (twf_twf0 FS s Hs) (twf_twf0 FS t Ht)) H) as (W & E & X).
  destruct (X Hs Ht) as [Wr D]. split.
  - assert (C : coeff (it FS r) (canon (tdeg r)) = den FS (coef r)).
    { unfold it. rewrite coeff_pterm. destruct (mono_dec _ _); congruence. }
    rewrite <- C, E. unfold it. rewrite pterm_mul, coeff_pterm. destruct (mono_dec _ _); congruence.
  - intros i. rewrite <- canon_exp, D, mmul_exp, !canon_exp. reflexivity.
Qed.

(** ** C25 *)
(** polynomials obtained through the API from constants, variables and valid terms *)
Inductive reachable : poly -> Prop :=
| R_zero : reachable poly_zero
| R_one : reachable poly_one
| R_const c : fwf FS c -> reachable (poly_from_coef c)
| R_var i k : k <= 255 -> reachable (poly_var i k)
| R_term t : okterm t -> reachable (poly_from_term t)
| R_new ts : Forall okterm ts -> NoDup (map tdeg ts) -> reachable (poly_new ts)
| R_term_add s t r : okterm s -> okterm t -> term_add s t = Ok r -> reachable r
| R_add_term p t r : reachable p -> okterm t -> poly_add_term p t = Ok r -> reachable r
| R_term_sub s t r : okterm s -> okterm t -> term_sub s t = Ok r -> reachable r
| R_sub_term p t r : reachable p -> okterm t -> poly_sub_term p t = Ok r -> reachable r
| R_term_sub_poly t p r : okterm t -> reachable p -> term_sub_poly t p = Ok r -> reachable r
| R_add p q r : reachable p -> reachable q -> poly_add p q = Ok r -> reachable r
| R_sub p q r : reachable p -> reachable q -> poly_sub p q = Ok r -> reachable r
| R_neg p r : reachable p -> poly_neg p = Ok r -> reachable r
| R_mul_term p t r : reachable p -> okterm t -> poly_mul_term Debug p t = Ok r -> reachable r
| R_scale p c r : reachable p -> fwf FS c -> poly_scale Debug p c = Ok r -> reachable r
| R_mul p q r : reachable p -> reachable q -> poly_mul Debug p q = Ok r -> reachable r
| R_div p c r : reachable p -> fwf FS c -> den FS c <> k0 -> poly_div_scalar Debug p c = Ok r -> reachable r.

Lemma clean_f0 p : clean p -> Forall okterm p.
Proof. intros [H _]. apply Forall_twf0. exact H. Qed.

Theorem C25_clean : forall p, reachable p -> clean p /\ (poly_is_zero p = true <-> forall m, coef_at p m = k0).
Proof.
  intros p H. assert (C : clean p).
  { induction H.
    - apply pwf_nil.
    - apply (C22_var_one_zero).
    - apply C22_from_coef_and_term; assumption.
    - apply C22_var_one_zero; assumption.
    - apply C22_from_coef_and_term; assumption.
    - apply C22_poly_new; assumption.
    - apply (safe_val _ _ _ (term_add_ok FS s t H H0) H1).
    - apply (safe_val _ _ _ (poly_add_term_ok FS p t IHreachable H0) H1).
    - apply (safe_val _ _ _ (term_sub_ok FS s t H H0) H1).
    - apply (safe_val _ _ _ (poly_sub_term_ok FS p t IHreachable H0) H1).
    - apply (safe_val _ _ _ (term_sub_poly_ok FS t p H IHreachable) H1).
    - apply (safe_val _ _ _ (poly_add_ok FS p q IHreachable1 (clean_f0 q IHreachable2)) H1).
    - apply (safe_val _ _ _ (poly_sub_ok FS p q IHreachable1 (clean_f0 q IHreachable2)) H1).
    - apply (safe_val _ _ _ (poly_neg_ok FS p (clean_f0 p IHreachable)) H0). assumption.
    - apply (safe_val _ _ _ (poly_mul_term_ok FS p t (clean_f0 p IHreachable) H0) H1). assumption.
    - apply (safe_val _ _ _ (poly_scale_ok FS p c (clean_f0 p IHreachable) H0) H1). assumption.
    - apply (safe_val _ _ _ (poly_mul_ok FS p q (clean_f0 p IHreachable1) IHreachable2) H1).
    - apply (safe_val _ _ _ (poly_div_scalar_ok FS p c (clean_f0 p IHreachable) H0 H1) H2). assumption. }
  split; [exact C|]. rewrite <- (peq_coeff (ip FS p) pzero), <- (pwf_zero_iff FS p C).
  destruct p; simpl; split; congruence.
Qed.

(** a clean polynomial is determined by its coefficients: same number of terms, same monomials *)
Theorem C25_equal_polys_same_support : forall p q, clean p -> clean q -> (forall m, coef_at p m = coef_at q m) ->
  length p = length q /\ (forall d, In d (map tdeg p) <-> In d (map tdeg q)) /\
  (forall s t, In s p -> In t q -> tdeg s = tdeg t -> den FS (coef s) = den FS (coef t)).
Proof.
  intros p q Hp Hq E.
  assert (X : forall d, In d (map tdeg p) <-> In d (map tdeg q)).
  { assert (Y : forall p q, clean p -> clean q -> (forall m, coef_at p m = coef_at q m) -> forall d, In d (map tdeg p) -> In d (map tdeg q)).
    { clear. intros p q Hp Hq E d I. apply in_map_iff in I as (t & <- & I).
      assert (N : coef_at q (canon (tdeg t)) <> k0) by (rewrite <- E; apply (pwf_support FS p); eauto).
      apply (pwf_support FS q) in N as (s & Is & Es); auto. apply in_map_iff. exists s. split; auto.
      apply canon_inj; auto; [apply (pwf_in FS q s Hq Is)|apply (pwf_in FS p t Hp I)]. }
    intros d. split; [apply Y|apply Y]; auto. }
  split; [|split; [exact X|]].
  - rewrite <- !(map_length tdeg). apply Nat.le_antisymm; apply NoDup_incl_length; try apply Hp; try apply Hq;
      intros d I; apply X; exact I.
  - intros s t Is It D. rewrite <- (pwf_coeff FS p s Hp Is), <- (pwf_coeff FS q t Hq It), E, D. reflexivity.
Qed.

(** ** C26 *)
Notation same p q := (forall m, coef_at p m = coef_at q m).

Lemma same_peq (p q : poly) : peq (ip FS p) (ip FS q) -> same p q.
Proof. intros E m. rewrite E. reflexivity. Qed.
Lemma add_val p q r : clean p -> clean q -> poly_add p q = Ok r -> clean r /\ peq (ip FS r) (padd (ip FS p) (ip FS q)).
Proof. intros Hp Hq H. apply (safe_val _ _ _ (poly_add_ok FS p q Hp (clean_f0 q Hq)) H). Qed.
Lemma mul_val p q r : clean p -> clean q -> poly_mul Debug p q = Ok r -> clean r /\ peq (ip FS r) (pmul (ip FS p) (ip FS q)).
Proof. intros Hp Hq H. apply (safe_val _ _ _ (poly_mul_ok FS p q (clean_f0 p Hp) Hq) H). Qed.

Theorem C26_add_laws : forall p q r, clean p -> clean q -> clean r ->
  (forall a b, poly_add p q = Ok a -> poly_add q p = Ok b -> same a b) /\
  (forall pq a qr b, poly_add p q = Ok pq -> poly_add pq r = Ok a -> poly_add q r = Ok qr -> poly_add p qr = Ok b -> same a b) /\
  (forall a, poly_add p poly_zero = Ok a -> same a p) /\
  (forall a, poly_add poly_zero p = Ok a -> same a p) /\
  (forall n a, poly_neg p = Ok n -> poly_add p n = Ok a -> a = poly_zero) /\
  (forall a, poly_sub p p = Ok a -> a = poly_zero).
Proof.
  intros p q r Hp Hq Hr. split; [|split; [|split; [|split; [|split]]]].
  - intros a b Ha Hb. apply add_val in Ha as [_ Ea]; auto. apply add_val in Hb as [_ Eb]; auto.
    apply same_peq. rewrite Ea, Eb. ring.
  - intros pq a qr b H1 H2 H3 H4. apply add_val in H1 as [W1 E1]; auto. apply add_val in H2 as [W2 E2]; auto.
    apply add_val in H3 as [W3 E3]; auto. apply add_val in H4 as [W4 E4]; auto.
    apply same_peq. rewrite E2, E1, E4, E3. ring.
  - intros a Ha. apply add_val in Ha as [_ Ea]; auto; [|apply pwf_nil]. apply same_peq. rewrite Ea. change (ip FS poly_zero) with (@pzero K). ring.
  - intros a Ha. apply add_val in Ha as [_ Ea]; auto; [|apply pwf_nil]. apply same_peq. rewrite Ea. change (ip FS poly_zero) with (@pzero K). ring.
  - intros n a Hn Ha. destruct (safe_val _ _ _ (poly_neg_ok FS p (clean_f0 p Hp)) Hn) as (_ & Wn & _ & En).
    apply add_val in Ha as [Wa Ea]; auto. apply (pwf_zero_iff FS a Wa). rewrite Ea, En. ring.
  - intros a Ha. apply (safe_val _ _ _ (poly_sub_ok FS p p Hp (clean_f0 p Hp))) in Ha as [Wa Ea].
    apply (pwf_zero_iff FS a Wa). rewrite Ea. ring.
Qed.

Theorem C26_mul_laws : forall p q r, clean p -> clean q -> clean r ->
  (forall a b, poly_mul Debug p q = Ok a -> poly_mul Debug q p = Ok b -> same a b) /\
  (forall pq a qr b, poly_mul Debug p q = Ok pq -> poly_mul Debug pq r = Ok a ->
     poly_mul Debug q r = Ok qr -> poly_mul Debug p qr = Ok b -> same a b) /\
  (forall qr a pq pr b, poly_add q r = Ok qr -> poly_mul Debug p qr = Ok a ->
     poly_mul Debug p q = Ok pq -> poly_mul Debug p r = Ok pr -> poly_add pq pr = Ok b -> same a b) /\
  (forall a, poly_mul Debug p poly_one = Ok a -> same a p) /\
  (forall a, poly_mul Debug poly_one p = Ok a -> same a p) /\
  (poly_mul Debug poly_zero p = Ok poly_zero).
Proof.
  intros p q r Hp Hq Hr.
  assert (C1 : clean (poly_one (F:=F))) by (apply C22_var_one_zero).
  assert (I1 : ip FS poly_one = pone) by (unfold poly_one, poly_term; rewrite ip_single; apply it_term_one).
  split; [|split; [|split; [|split; [|split]]]].
  - intros a b Ha Hb. apply mul_val in Ha as [_ Ea]; auto. apply mul_val in Hb as [_ Eb]; auto.
    apply same_peq. rewrite Ea, Eb. ring.
  - intros pq a qr b H1 H2 H3 H4. apply mul_val in H1 as [W1 E1]; auto. apply mul_val in H2 as [W2 E2]; auto.
    apply mul_val in H3 as [W3 E3]; auto. apply mul_val in H4 as [W4 E4]; auto.
    apply same_peq. rewrite E2, E1, E4, E3. ring.
  - intros qr a pq pr b H1 H2 H3 H4 H5. apply add_val in H1 as [W1 E1]; auto. apply mul_val in H2 as [W2 E2]; auto.
    apply mul_val in H3 as [W3 E3]; auto. apply mul_val in H4 as [W4 E4]; auto. apply add_val in H5 as [W5 E5]; auto.
    apply same_peq. rewrite E2, E1, E5, E3, E4. ring.
  - intros a Ha. apply mul_val in Ha as [_ Ea]; auto. apply same_peq. rewrite Ea, I1. ring.
  - intros a Ha. apply mul_val in Ha as [_ Ea]; auto. apply same_peq. rewrite Ea, I1. ring.
  - reflexivity.
Qed.

(** multiplication by a nonzero term keeps the number of terms *)
Theorem C26_mul_term_injective : forall p t r, clean p -> twf FS t -> poly_mul_term Debug p t = Ok r -> length r = length p.
Proof.
  intros p t r Hp Ht H. unfold poly_mul_term in H.
  rewrite (proj2 (is_zero_false FS t (proj1 Ht))) in H by apply Ht.
  destruct p as [|s p]; simpl in H; [injection H as <-; reflexivity|].
  apply bind_Ok in H as (y & Hy & H). apply bind_Ok in H as (ys & Hys & H). injection H as <-.
  simpl. f_equal. apply mapM_Ok in Hys. apply Forall2_len in Hys. congruence.
Qed.

(** ** C27 *)
(** the value of a term list at a point: sum of coef * prod x_i^deg_i *)
Definition value (x : list F) (p : poly) : K :=
  ksum (map (fun t => kmul (den FS (coef t))
     (fold_right kmul k1 (map (fun i => kpow (den FS (nth i x f0)) (expo (tdeg t) i)) (seq 0 (length (tdeg t)))))) p).

Lemma kprod_seq (g : nat -> K) n : forall a, fold_right kmul k1 (map g (seq a n)) = kprod_up (fun i => g (a + i)) n.
Proof.
  induction n as [|n IH]; intros a; [reflexivity|]. rewrite kprod_up_front. simpl. rewrite IH. f_equal.
  - f_equal. lia.
  - apply kprod_up_ext. intros i _. f_equal. lia.
Qed.
Lemma value_peval x p : Forall okterm p -> peval (pt FS x) (ip FS p) = value x p.
Proof.
  unfold value. induction 1 as [|t p Ht Hp IH]; [reflexivity|].
  rewrite ip_cons. unfold peval, padd. rewrite ev_app. unfold peval in IH. rewrite IH. unfold ksum. cbn [map fold_right]. f_equal.
  rewrite ev_it. f_equal. unfold mval. rewrite mlist_canon by apply Ht. rewrite mval_up_prod.
  rewrite (kprod_seq (fun i => kpow (den FS (nth i x f0)) (expo (tdeg t) i)) (length (tdeg t)) 0).
  apply kprod_up_ext. intros i _. rewrite canon_exp. reflexivity.
Qed.

Theorem C27_eval_value : forall p x, clean p -> Forall (fwf FS) x ->
  (Forall (fun t => length (tdeg t) <= length x) p ->
     safe (poly_eval p x) (fun v => fwf FS v /\ den FS v = value x p)) /\
  (Exists (fun t => length x < length (tdeg t)) p ->
     poly_eval p x = Panic Explicit \/ poly_eval p x = Panic Overflow).
Proof.
  intros p x Hp Hx. split.
  - intros L. eapply safe_mono; [apply (poly_eval_ok FS); auto; apply clean_f0; exact Hp|].
    intros v [W E]. split; [exact W|]. rewrite E. apply value_peval. apply clean_f0. exact Hp.
  - intros L. apply (poly_eval_short FS); auto. apply clean_f0. exact Hp.
Qed.

Lemma eval_val p x v : clean p -> Forall (fwf FS) x -> poly_eval p x = Ok v -> den FS v = peval (pt FS x) (ip FS p).
Proof.
  intros Hp Hx H.
  destruct (Exists_dec (fun t => length x < length (tdeg t)) p) as [E|E].
  { intros t. apply lt_dec. }
  - destruct (poly_eval_short FS p x (clean_f0 p Hp) Hx E); congruence.
  - apply (safe_val _ _ _ (poly_eval_ok FS p x (clean_f0 p Hp) Hx (proj2 (Forall_forall _ _)
      (fun t I => match le_lt_dec (length (tdeg t)) (length x) with
        | left l => l | right l => False_ind _ (E (proj2 (Exists_exists _ _) (ex_intro _ t (conj I l)))) end))) H).
Qed.

Theorem C27_homomorphism : forall p q x vp vq, clean p -> clean q -> Forall (fwf FS) x ->
  poly_eval p x = Ok vp -> poly_eval q x = Ok vq ->
  (forall s v, poly_add p q = Ok s -> poly_eval s x = Ok v -> den FS v = kadd (den FS vp) (den FS vq)) /\
  (forall s v, poly_sub p q = Ok s -> poly_eval s x = Ok v -> den FS v = ksub (den FS vp) (den FS vq)) /\
  (forall s v, poly_mul Debug p q = Ok s -> poly_eval s x = Ok v -> den FS v = kmul (den FS vp) (den FS vq)) /\
  (forall s v, poly_neg p = Ok s -> poly_eval s x = Ok v -> den FS v = kopp (den FS vp)) /\
  (forall s c v, fwf FS c -> poly_scale Debug p c = Ok s -> poly_eval s x = Ok v -> den FS v = kmul (den FS c) (den FS vp)) /\
  (forall v, poly_eval poly_one x = Ok v -> den FS v = k1).
Proof.
  intros p q x vp vq Hp Hq Hx Ep Eq. apply eval_val in Ep; auto. apply eval_val in Eq; auto. rewrite Ep, Eq.
  pose proof (mval_multiplicative (pt FS x)) as M.
  split; [|split; [|split; [|split; [|split]]]].
  - intros s v Hs Hv. apply add_val in Hs as [Ws Es]; auto. apply eval_val in Hv; auto. rewrite Hv.
    unfold peval. rewrite (Es (mval (pt FS x))). apply ev_app.
  - intros s v Hs Hv. apply (safe_val _ _ _ (poly_sub_ok FS p q Hp (clean_f0 q Hq))) in Hs as [Ws Es].
    apply eval_val in Hv; auto. rewrite Hv. unfold peval. rewrite (Es (mval (pt FS x))). unfold psub, padd. rewrite ev_app, ev_popp. ring.
  - intros s v Hs Hv. apply mul_val in Hs as [Ws Es]; auto. apply eval_val in Hv; auto. rewrite Hv.
    unfold peval. rewrite (Es (mval (pt FS x))). apply ev_hom_mul. exact M.
  - intros s v Hs Hv. apply (safe_val _ _ _ (poly_neg_ok FS p (clean_f0 p Hp))) in Hs as (_ & Ws & _ & Es).
    apply eval_val in Hv; auto. rewrite Hv. unfold peval. rewrite (Es (mval (pt FS x))). apply ev_popp.
  - intros s c v Hc Hs Hv. apply (safe_val _ _ _ (poly_scale_ok FS p c (clean_f0 p Hp) Hc)) in Hs as (_ & Ws & Es).
    apply eval_val in Hv; auto. rewrite Hv. unfold peval. rewrite (Es (mval (pt FS x))). unfold pscale. rewrite ev_tmul. f_equal.
    apply ev_ext. intros m. rewrite mmul_1_l. reflexivity.
  - intros v Hv. apply eval_val in Hv; auto; [|apply C22_var_one_zero]. rewrite Hv.
    unfold poly_one, poly_term. rewrite ip_single, it_term_one. apply ev_hom_one. exact M.
Qed.

(** ** C28 *)
Theorem C28_try_div : forall s t, okterm s -> twf FS t ->
  safe (term_try_div s t) (fun o =>
    (o <> None <-> den FS (coef s) = k0 \/ forall i, expo (tdeg t) i <= expo (tdeg s) i) /\
    (forall q, o = Some q -> okterm q /\ (forall m, conv [q] [t] m = tcoef_at s m) /\
       (den FS (coef s) <> k0 -> twf FS q))).
Proof.
  intros s t Hs Ht. destruct (kdec (den FS (coef s)) k0) as [Z|N].
  - unfold term_try_div. rewrite (proj2 (is_zero_spec FS s (proj1 Hs)) Z). simpl.
    split; [split; [auto|discriminate]|]. intros q [= <-]. split; [apply term_zero_wf|]. split; [|intros; contradiction].
    intros m. rewrite <- conv_coeff, !ip_single. apply coeff_proper; [|reflexivity].
    assert (X : peq (it FS s) pzero) by exact (it_zero FS s (proj1 Hs) (proj2 (is_zero_spec FS s (proj1 Hs)) Z)).
    rewrite X, it_term_zero. ring.
  - assert (Hs' : twf FS s) by (apply twf_split; split; assumption).
    eapply safe_mono; [apply (term_try_div_ok FS); assumption|]. intros [q|]; simpl.
    + intros (Wq & D & C). split.
      * split; [|discriminate]. intros _. right. apply mdiv_canon. rewrite D. apply mdiv_mul.
      * intros q' [= <-]. split; [apply twf_twf0; exact Wq|]. split; [|auto]. intros m.
        rewrite <- conv_coeff, !ip_single. unfold it. rewrite pterm_mul. rewrite C, D, (mmul_comm (canon (tdeg q))).
        rewrite !coeff_pterm. destruct (mono_dec _ m); [|reflexivity]. field. apply Ht.
    + intros ND. split; [|discriminate]. split; [congruence|]. intros [Z|L]; [contradiction|]. exfalso. apply ND.
      apply mdiv_canon. exact L.
Qed.

Theorem C28_zero_operands : forall s t, okterm s -> okterm t -> den FS (coef t) = k0 ->
  term_try_div s t = (if kdec (den FS (coef s)) k0 then Ok (Some term_zero) else Ok None) /\ term_divides t s = false.
Proof.
  intros s t Hs Ht Z. unfold term_try_div, term_divides.
  apply (is_zero_spec FS t (proj1 Ht)) in Z. rewrite Z. split; [|reflexivity].
  destruct (kdec (den FS (coef s)) k0) as [E|N].
  - apply (is_zero_spec FS s (proj1 Hs)) in E. rewrite E. reflexivity.
  - apply (is_zero_false FS s (proj1 Hs)) in N. rewrite N. reflexivity.
Qed.

Theorem C28_divides_agrees : forall s t, twf FS s -> okterm t ->
  safe (term_try_div s t) (fun o => o <> None <-> term_divides t s = true).
Proof.
  intros s t Hs Ht. pose proof (twf_twf0 FS s Hs) as Hs0. destruct (kdec (den FS (coef t)) k0) as [Z|N].
  - destruct (C28_zero_operands s t Hs0 Ht Z) as [E D].
    rewrite E, D. destruct (kdec (den FS (coef s)) k0) as [X|X]; [destruct Hs as (_ & Y & _); contradiction|].
    simpl. split; [congruence|discriminate].
  - assert (Ht' : twf FS t) by (apply twf_split; split; assumption).
    eapply safe_mono; [apply C28_try_div; assumption|]. cbv beta. intros o [H _]. rewrite H.
    rewrite (term_divides_ok FS t s Ht Hs0), mdiv_canon. destruct Hs as (_ & Y & _). tauto.
Qed.

(** ** C29 *)
Theorem C29_div_scalar : forall p c, clean p -> fwf FS c -> den FS c <> k0 ->
  safe (poly_div_scalar Debug p c) (fun r => clean r /\ forall m, coef_at r m = kdiv (coef_at p m) (den FS c)).
Proof.
  intros p c Hp Hc Nc. eapply safe_mono; [apply (poly_div_scalar_ok FS); auto; apply clean_f0; exact Hp|].
  intros r (_ & W & E). split; [auto|]. intros m. rewrite E, coeff_scale. field. exact Nc.
Qed.

End PropPoly.

(** division by the rational zero *)
Theorem C29_div_by_zero : forall p, pwf rat_spec p ->
  poly_div_scalar (F := rat_impl Debug) Debug p rat_zero = match p with [] => Ok [] | _ => Panic Explicit end.
Proof.
  intros p [H _]. unfold poly_div_scalar. cbn [finv rat_impl].
  change (rat_recip Debug rat_zero) with (Ok (mkrat 0 0)). cbn [bind].
  unfold poly_scale, poly_mul_term. destruct p as [|t p]; [reflexivity|].
  inversion H as [|? ? Ht _]; subst. cbn -[int_mul rat_mul term_mul].
  unfold term_mul. rewrite (proj2 (is_zero_false rat_spec t (proj1 Ht))) by apply Ht.
  cbn -[int_mul]. unfold rat_mul. cbn [numer denom]. unfold int_mul. rewrite !Z.mul_0_r. reflexivity.
Qed.

(** ** Concrete cases: 2x^2y - 1/3 and x + y over Rational *)
Notation rterm := (PolyModel.term (rat_impl Debug)).
Definition ex_t (n d : Z) (e : mdeg) : rterm := @mkterm (rat_impl Debug) (mkrat n d) e.
Definition ex_p : poly (rat_impl Debug) := [ex_t 2 1 [2; 1]; ex_t (-1) 3 []].
Definition ex_q : poly (rat_impl Debug) := [ex_t 1 1 [1]; ex_t 1 1 [0; 1]].
Lemma ex_wf n d e : (0 < d)%Z -> n <> 0%Z -> mwf e -> twf rat_spec (ex_t n d e).
Proof.
  intros Hd Hn He. assert (W : rat_wf (mkrat n d)) by (split; simpl; [lia|intros; contradiction]).
  split; [exact W|]. split; [|exact He]. simpl. intros E. apply den_zero_iff in E; [contradiction|exact Hd].
Qed.
Lemma mwf_b e : canonicalb e && forallb (fun x => x <=? 255) e = true -> mwf e.
Proof. intros H. apply andb_true_iff in H as [H1 H2]. split; [apply canonicalb_spec; exact H1|apply forallb_u8; exact H2]. Qed.
Example ex_p_clean : pwf rat_spec ex_p.
Proof.
  split; [repeat constructor|].
  all: try (apply ex_wf; [lia|lia|apply mwf_b; reflexivity]).
  constructor; [intros [E|[]]; discriminate|constructor; [intros []|constructor]].
Qed.
Example ex_q_clean : pwf rat_spec ex_q.
Proof.
  split; [repeat constructor|].
  all: try (apply ex_wf; [lia|lia|apply mwf_b; reflexivity]).
  constructor; [intros [E|[]]; discriminate|constructor; [intros []|constructor]].
Qed.
Example C23_ex : poly_add ex_p ex_q = Ok [ex_t 2 1 [2; 1]; ex_t (-1) 3 []; ex_t 1 1 [1]; ex_t 1 1 [0; 1]].
Proof. reflexivity. Qed.
Example C23_ex_cancel : poly_sub ex_p ex_p = Ok []. Proof. reflexivity. Qed.
Example C24_ex : poly_mul Debug ex_p ex_q =
  Ok [ex_t 2 1 [3; 1]; ex_t 2 1 [2; 2]; ex_t (-1) 3 [1]; ex_t (-1) 3 [0; 1]].
Proof. reflexivity. Qed.
Example C24_ex_sq : poly_mul Debug ex_q ex_q = Ok [ex_t 1 1 [2]; ex_t 2 1 [1; 1]; ex_t 1 1 [0; 2]].
Proof. reflexivity. Qed.
Example C25_ex : reachable rat_spec ex_q.
Proof.
  apply (R_add rat_spec (poly_var 0 1) (poly_var 1 1)); [apply R_var; lia|apply R_var; lia|reflexivity].
Qed.
Example C27_ex : poly_eval ex_p [mkrat 3 1 : rat_impl Debug; mkrat 1 2] = Ok (mkrat 26 3 : rat_impl Debug).
Proof. reflexivity. Qed.
Example C27_ex_short : poly_eval ex_p [mkrat 3 1 : rat_impl Debug] = Panic Explicit.
Proof. reflexivity. Qed.
Example C28_ex : term_try_div (ex_t 3 1 [2; 1]) (ex_t 2 1 [1; 1]) = Ok (Some (ex_t 3 2 [1])) /\
  term_divides (ex_t 2 1 [1; 1]) (ex_t 3 1 [2; 1]) = true /\
  term_try_div (ex_t 3 1 [2; 1]) (ex_t 2 1 [1; 2]) = Ok None.
Proof. repeat split; reflexivity. Qed.
Example C29_ex : poly_div_scalar Debug ex_p (mkrat 2 1 : rat_impl Debug) = Ok [ex_t 1 1 [2; 1]; ex_t (-1) 6 []] /\
  poly_div_scalar Debug ex_p (mkrat 0 1 : rat_impl Debug) = Panic Explicit.
Proof. split; reflexivity. Qed.

Print Assumptions C22_term_new.
Print Assumptions C22_from_coef_and_term.
Print Assumptions C22_var_one_zero.
Print Assumptions C22_poly_new.
Print Assumptions C23_add.
Print Assumptions C23_sub.
Print Assumptions C23_neg.
Print Assumptions C24_mul.
Print Assumptions C24_term_degree.
Print Assumptions C25_clean.
Print Assumptions C25_equal_polys_same_support.
Print Assumptions C26_add_laws.
Print Assumptions C26_mul_laws.
Print Assumptions C26_mul_term_injective.
Print Assumptions C27_eval_value.
Print Assumptions C27_homomorphism.
Print Assumptions C28_try_div.
Print Assumptions C28_zero_operands.
Print Assumptions C28_divides_agrees.
Print Assumptions C29_div_scalar.
Print Assumptions C29_div_by_zero.
