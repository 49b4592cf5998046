(** * Property C124: divisions in which no degree overflows.

    [fits x]: the run [x] does not stop with an overflow.  [roomy n O OS B]: a set [B] of monomials with u8 exponents, containing
    with a monomial every smaller one in the first [n] variables, on which the order never overflows. *)
From Coq Require Import ZArith QArith Qcanon.
From Verif Require Import Base BaseLemmas IntModel RatModel FieldIface RatProofs MDegModel OrdModel PolyModel CompModel
  MonoSpec MDegProofs OrdProofs PolySpec PolyProofs GroebnerSpec DivProofs Ideal PropMdeg PropPoly PropDiv PropCost.
From Coq Require Import Lia Ring Field Setoid Morphisms Permutation.
Local Open Scope nat_scope.

Definition fits {A : Type} (x : res A) : Prop := x <> Panic Overflow.
Lemma fits_Ok {A : Type} (a : A) : fits (Ok a).
Proof. discriminate. Qed.
Lemma fits_bind {A B : Type} (x : res A) (f : A -> res B) P : safe x P -> fits x -> (forall a, P a -> fits (f a)) -> fits (bind x f).
Proof. intros S H G. destruct x as [a|k|]; [exact (G a S)|intros E; apply H; injection E as ->; reflexivity|discriminate]. Qed.
Lemma fits_bind' {A B : Type} (x : res A) (f : A -> res B) : fits x -> (forall a, fits (f a)) -> fits (bind x f).
Proof. intros H G. destruct x as [a|k|]; [exact (G a)|intros E; apply H; injection E as ->; reflexivity|discriminate]. Qed.
Lemma fits_eq {A B : Type} (x : res A) (f : A -> res B) : fits x -> (forall a, x = Ok a -> fits (f a)) -> fits (bind x f).
Proof. intros H G. destruct x as [a|k|]; [exact (G a eq_refl)|intros E; apply H; injection E as ->; reflexivity|discriminate]. Qed.
Lemma fits_mapM {A B : Type} (f : A -> res B) l : (forall x, In x l -> fits (f x)) -> fits (mapM f l).
Proof.
  induction l as [|x l IH]; intros H; cbn [mapM]; [apply fits_Ok|]. apply fits_bind'; [apply H; left; reflexivity|]. intros y.
  apply fits_bind'; [apply IH; intros; apply H; right; assumption|]. intros. apply fits_Ok.
Qed.

(** arithmetic that never overflows: for instance the numbers themselves *)
Record roomy_field (F : FieldImpl) : Prop := {
  r_add : forall x y : F, fits (fadd x y);
  r_neg : forall x : F, fits (fneg x);
  r_mul : forall x y : F, fits (fmul x y);
  r_div : forall x y : F, feqb y f0 = false -> fits (fdiv x y)
}.
Lemma ideal_roomy K : roomy_field (ideal_impl K).
Proof. constructor; cbn; intros; try discriminate. rewrite H. discriminate. Qed.

Record roomy (n : nat) {O : ord_impl} (OS : OrderSpec O) (B : mono -> Prop) : Prop := {
  b_down : forall x y, B x -> mvars n y -> mle (olt OS) y x -> B y;
  b_cmp : forall a b, mwf a -> mwf b -> B (canon a) -> B (canon b) -> fits (O a b);
  b_u8 : forall x i, B x -> mexp x i <= 255
}.

Section Fits.
Context {F : FieldImpl} {K : MathField} (FS : FieldSpec F K) {O : ord_impl} (OS : OrderSpec O).
Add Field Kf55 : (kth K).
Add Ring Pr55 : (@poly_ring K) (setoid (@peq_equiv K) (@poly_ring_ext K)).
Notation poly := (poly F).
Notation term := (term F).
Notation val := (ip FS).
Notation clean := (pwf FS).
Notation lt := (olt OS).
Notation le := (mle (olt OS)).
Notation tm t := (canon (tdeg t)).
Let laws := olaws _ OS.
Context (RF : roomy_field F) (n : nat) (B : mono -> Prop) (RB : roomy n OS B).

Lemma add_term_fits (p : poly) t : fits (poly_add_term p t).
Proof.
  unfold poly_add_term. destruct (poly_is_zero p); [apply fits_Ok|]. destruct (term_is_zero t); [apply fits_Ok|].
  destruct (position _ p) as [i|]; [|apply fits_Ok]. apply fits_bind'; [unfold vget; destruct (nth_error p i); discriminate|]. intros ti.
  apply fits_bind'; [apply (r_add _ RF)|]. intros c. destruct (term_is_zero _); apply fits_Ok.
Qed.
Lemma add_fits (q : poly) : forall p, fits (poly_add p q).
Proof.
  unfold poly_add. induction q as [|t q IH]; intros p; cbn [foldM]; [apply fits_Ok|]. apply fits_bind'; [apply add_term_fits|]. exact IH.
Qed.
Lemma sub_fits (p q : poly) : fits (poly_sub p q).
Proof.
  unfold poly_sub. apply fits_bind'; [|intros; apply add_fits]. unfold poly_neg. apply fits_mapM. intros t _. unfold term_neg.
  apply fits_bind'; [apply (r_neg _ RF)|]. intros. apply fits_Ok.
Qed.
(** all monomials in B *)
Definition inB (p : poly) : Prop := forall t, In t p -> B (tm t).
Lemma mul_term_fits (p : poly) a : clean p -> twf0 FS a -> (forall s, In s p -> B (mmul (tm a) (tm s))) -> fits (term_mul_poly Debug a p).
Proof.
  intros Wp Wa H. unfold term_mul_poly, poly_mul_term. destruct (term_is_zero a || poly_is_zero p); [apply fits_Ok|]. apply fits_mapM. intros s Hs.
  unfold term_mul. destruct (term_is_zero s || term_is_zero a); [apply fits_Ok|]. apply fits_bind'; [apply (r_mul _ RF)|]. intros c.
  destruct (pwf_in FS p s Wp Hs) as (_ & _ & Ms).
  destruct (proj2 (C14_add_overflow_iff (tdeg s) (tdeg a) (proj2 Ms) (proj2 (proj2 Wa)))) as (d & -> & _); [|discriminate].
  intros i. pose proof (b_u8 _ _ _ RB _ i (H s Hs)) as U. rewrite mmul_exp, !canon_exp in U. lia.
Qed.
Lemma cmp_fits (p : poly) s t : clean p -> inB p -> In s p -> In t p -> fits (term_cmp O s t).
Proof.
  intros W H Hs Ht. unfold term_cmp. destruct (pwf_in FS p s W Hs) as (_ & _ & Ms). destruct (pwf_in FS p t W Ht) as (_ & _ & Mt).
  apply (b_cmp _ _ _ RB); auto.
Qed.
Lemma leading_fits (p : poly) : clean p -> inB p -> fits (leading_term O p).
Proof.
  intros W H. unfold leading_term, max_by. destruct p as [|s p]; [apply fits_Ok|].
  assert (G : forall (l : list term) (a : term), In a (s :: p) -> (forall x, In x l -> In x (s :: p)) ->
    fits (foldM (fun best y : term => c <- term_cmp O best y ;; Ok (match c with Gt => best | _ => y end)) l a)).
  { induction l as [|y l IH]; intros a Ia Il; cbn [foldM]; [apply fits_Ok|].
    assert (Iy : In y (s :: p)) by (apply Il; left; reflexivity).
    apply fits_eq.
    - apply fits_bind'; [apply (cmp_fits (s :: p)); assumption|intros; apply fits_Ok].
    - intros b E. apply IH; [|intros; apply Il; right; assumption].
      destruct (term_cmp O a y) as [[]| |]; cbn [bind] in E; try discriminate; injection E as <-; assumption. }
  apply fits_bind'; [|intros; apply fits_Ok]. apply G; [left; reflexivity|intros; right; assumption].
Qed.
Lemma insert_in (x : term) l r : insert_by (term_cmp O) x l = Ok r -> forall y, In y r -> y = x \/ In y l.
Proof.
  revert r. induction l as [|z l IH]; intros r; cbn [insert_by].
  { intros E. injection E as <-. intros y [<-|[]]. auto. }
  destruct (term_cmp O x z) as [c| |]; cbn [bind]; try discriminate.
  destruct c; try (intros E; injection E as <-; intros y [<-|Hy]; auto).
  destruct (insert_by (term_cmp O) x l) as [s| |] eqn:E; cbn [bind]; try discriminate. intros E'. injection E' as <-.
  intros y [<-|Hy]; [right; left; reflexivity|]. destruct (IH s eq_refl y Hy); cbn; auto.
Qed.
Lemma sort_fits (p : poly) : clean p -> inB p -> fits (sort_by (term_cmp O) p).
Proof.
  intros W H.
  assert (GI : forall l (x : term), In x p -> (forall y, In y l -> In y p) -> fits (insert_by (term_cmp O) x l)).
  { induction l as [|z l IH]; intros x Ix Il; cbn [insert_by]; [apply fits_Ok|].
    apply fits_bind'; [apply (cmp_fits p); auto; apply Il; left; reflexivity|]. intros c. destruct c; try apply fits_Ok.
    apply fits_bind'; [apply IH; [exact Ix|intros; apply Il; right; assumption]|intros; apply fits_Ok]. }
  assert (G : forall l : list term, (forall y, In y l -> In y p) -> fits (sort_by (term_cmp O) l) /\ forall r, sort_by (term_cmp O) l = Ok r -> forall y, In y r -> In y l).
  { induction l as [|x l IH]; intros Il; cbn [sort_by].
    - split; [apply fits_Ok|]. intros r E. injection E as <-. auto.
    - destruct IH as [I1 I2]; [intros; apply Il; right; assumption|]. split.
      + apply fits_eq; [exact I1|]. intros r E. apply GI; [apply Il; left; reflexivity|]. intros y Hy. apply Il. right. exact (I2 r E y Hy).
      + intros r. destruct (sort_by (term_cmp O) l) as [s| |] eqn:E; cbn [bind]; try discriminate. intros E' y Hy.
        destruct (insert_in _ _ _ E' y Hy) as [->|Hs]; [left; reflexivity|right; exact (I2 s eq_refl y Hs)]. }
  apply G. auto.
Qed.
Lemma try_div_fits (s t : term) : fits (term_try_div s t).
Proof.
  unfold term_try_div. destruct (term_is_zero s); [apply fits_Ok|]. destruct (term_is_zero t) eqn:Z; [apply fits_Ok|].
  apply fits_bind'; [apply (r_div _ RF); exact Z|]. intros c. destruct (mdeg_checked_sub _ _); apply fits_Ok.
Qed.
Lemma try_divisors_fits t divs : Forall clean divs -> Forall inB divs -> forall quots : list poly, fits (try_divisors O t divs quots).
Proof.
  intros W H. induction W as [|g divs Wg W IH]; intros quots; cbn [try_divisors]; [destruct quots; apply fits_Ok|].
  inversion H as [|? ? Hg Hd]; subst. specialize (IH Hd). destruct quots as [|q quots]; [apply fits_Ok|].
  assert (SK : fits (r <- try_divisors O t divs quots ;; Ok (match r with None => None | Some (qs0, a, g') => Some (q :: qs0, a, g') end))).
  { apply fits_bind'; [apply IH|]. intros. apply fits_Ok. }
  apply fits_bind'; [apply leading_fits; assumption|]. intros [l|]; [|exact SK]. apply fits_bind'; [apply try_div_fits|]. intros [a|]; [|exact SK].
  apply fits_bind'; [apply add_term_fits|]. intros. apply fits_Ok.
Qed.
Lemma inB_val (p : poly) : clean p -> (inB p <-> forall x, coeff (val p) x <> k0 -> B x).
Proof.
  intros W. split.
  - intros H x X. apply (pwf_support FS p x W) in X as (t & It & <-). exact (H t It).
  - intros H t It. apply H. apply (pwf_support FS p _ W). exists t. auto.
Qed.

Lemma divide_loop_fits divs : Forall clean divs -> Forall inB divs -> (forall g, In g divs -> svars n (val g)) ->
  forall fuel (f : poly) quots rem, clean f -> svars n (val f) -> inB f -> Forall clean quots -> clean rem ->
  length quots = length divs -> fits (divide_loop Debug O fuel f divs quots rem).
Proof.
  intros Wd Bd Vd. induction fuel as [|fuel IH]; intros f quots rem Wf Vf Bf Wq Wr Lq.
  - cbn [divide_loop]. apply fits_bind'; [apply leading_fits; assumption|]. intros [t|]; discriminate.
  - cbn [divide_loop]. apply fits_bind with (P := fun o => match o with None => f = [] | Some t => In t f /\ twf FS t /\ is_lm lt (val f) (tm t) /\ coeff (val f) (tm t) = den FS (coef t) end);
      [apply (leading_term_ok FS OS); exact Wf|apply leading_fits; assumption|].
    intros [t|]; [|discriminate]. intros (It & Wt & Lt & Ct).
    assert (Rec : forall f' quots' rem', clean f' -> svars n (val f') -> Forall clean quots' -> clean rem' ->
       length quots' = length divs -> (forall x, coeff (val f') x <> k0 -> le x (tm t)) -> fits (divide_loop Debug O fuel f' divs quots' rem')).
    { intros f' quots' rem' Wf' Vf' Wq' Wr' Lq' Low. apply IH; auto. apply (inB_val f' Wf'). intros x X.
      apply (b_down _ _ _ RB (tm t)); [apply Bf; exact It|exact (Vf' x X)|exact (Low x X)]. }
    eapply fits_bind; [apply (try_divisors_ok FS OS t Wt divs quots); assumption|apply try_divisors_fits; assumption|].
    intros [[[quots' a] g]|] H.
    + destruct H as (i & q & q' & l & Hg & Hq & -> & Wq' & Eq' & Wa & Lg & Em & Ed & Hfirst).
      assert (Ig : In g divs) by (eapply nth_error_In; exact Hg).
      assert (Wg : clean g) by (rewrite Forall_forall in Wd; auto).
      assert (Va : mvars n (tm a)).
      { assert (Vt : mvars n (tm t)) by (apply Vf; apply Lt). rewrite Em in Vt. apply mvars_mul in Vt. apply Vt. }
      eapply fits_bind; [apply (term_mul_poly_ok FS a g); assumption| |].
      { apply mul_term_fits; [exact Wg|apply twf_twf0; exact Wa|]. intros s Is.
        assert (Ns : coeff (val g) (tm s) <> k0) by (apply (pwf_support FS g _ Wg); exists s; auto).
        apply (b_down _ _ _ RB (tm t)); [apply Bf; exact It| |].
        - apply mvars_mul. split; [exact Va|exact (Vd g Ig _ Ns)].
        - rewrite Em. destruct (proj2 Lg _ Ns) as [<-|L]; [left; reflexivity|right].
          destruct laws as (_ & _ & _ & Mul & _). apply Mul. exact L. }
      intros ag [Wag Eag].
      eapply fits_bind; [apply (poly_sub_ok FS f ag Wf); apply Forall_twf0; apply Wag|apply sub_fits|]. intros f' [Wf' Ef'].
      assert (Ef'' : peq (val f') (psub (val f) (tmul (den FS (coef a)) (tm a) (val g)))) by (rewrite Ef', Eag; reflexivity).
      apply Rec; auto.
      * rewrite Ef''. apply svars_sub; [exact Vf|]. apply svars_tmul; [exact Va|auto].
      * apply Forall_list_set; assumption.
      * rewrite list_set_length. exact Lq.
      * intros x X. right. rewrite Ef'' in X. rewrite Ed, <- Ct in X. eapply (reduce_lm lt laws (val f) (val g) l (tm a) (tm t)); eassumption.
    + eapply fits_bind; [apply (sort_ok FS OS f); apply Forall_twf0; apply Wf|apply sort_fits; assumption|]. intros fs (P & S & _).
      pose proof (vec_pop_spec fs) as V. destruct (vec_pop fs) as [f' [l|]].
      * subst fs.
        assert (Il : In l f) by (apply (Permutation_in _ (Permutation_sym P)); apply in_or_app; right; left; reflexivity).
        assert (Wl : twf FS l) by (exact (pwf_in FS f l Wf Il)).
        assert (Wp : clean (f' ++ [l])) by (apply (pwf_perm FS f); assumption).
        assert (Wf' : clean f').
        { destruct Wp as [A N]. apply Forall_app in A as [A _]. split; [exact A|]. rewrite map_app in N.
          clear - N. induction (map tdeg f') as [|x xs IH]; [constructor|]. simpl in N. inversion N; subst. constructor; auto.
          intros I. apply H1. apply in_or_app. left. exact I. }
        eapply fits_bind; [apply (poly_add_term_ok FS rem l Wr); apply twf_twf0; exact Wl|apply add_term_fits|]. intros rem' [Wr' Er'].
        assert (Sub : forall x, coeff (val f') x <> k0 -> coeff (val f) x <> k0).
        { intros x X. apply (pwf_support FS f' x Wf') in X as (s & Is & <-).
          apply (pwf_support FS f _ Wf). exists s. split; [|reflexivity].
          apply (Permutation_in _ (Permutation_sym P)). apply in_or_app. left. exact Is. }
        apply Rec; auto.
        -- intros x X. apply Vf. apply Sub. exact X.
        -- intros x X. apply (proj2 Lt). apply Sub. exact X.
      * destruct V as [-> ->]. apply Permutation_sym in P. apply Permutation_nil in P. subst f. contradiction.
Qed.
Theorem C124_divide_fits : forall (f : poly) divs fuel, clean f -> Forall clean divs -> svars n (val f) -> (forall g, In g divs -> svars n (val g)) ->
  (forall x, coeff (val f) x <> k0 -> B x) -> (forall g x, In g divs -> coeff (val g) x <> k0 -> B x) -> fits (divide Debug O fuel f divs).
Proof.
  intros f divs fuel Wf Wd Vf Vd Bf Bd. unfold divide. apply divide_loop_fits; auto.
  - apply Forall_forall. intros g Ig. rewrite Forall_forall in Wd. apply (inB_val g (Wd g Ig)). intros x. exact (Bd g x Ig).
  - apply (inB_val f Wf). exact Bf.
  - apply Forall_forall. intros p Ip. apply repeat_spec in Ip. subst p. apply pwf_nil.
  - apply pwf_nil.
  - apply repeat_length.
Qed.
End Fits.

(** more fuel changes nothing once the run has ended *)
Lemma divide_loop_stable {F : FieldImpl} m O : forall k k' (f : poly F) divs qs rem, k <= k' ->
  divide_loop m O k f divs qs rem <> NoFuel -> divide_loop m O k' f divs qs rem = divide_loop m O k f divs qs rem.
Proof.
  induction k as [|k IH]; intros k' f divs qs rem L N.
  - cbn [divide_loop] in N |- *. destruct k' as [|k']; [reflexivity|]. cbn [divide_loop].
    destruct (leading_term O f) as [[t|]| |]; cbn [bind] in *; try reflexivity. contradiction.
  - destruct k' as [|k']; [lia|]. cbn [divide_loop] in N |- *. destruct (leading_term O f) as [[t|]| |]; cbn [bind] in *; try reflexivity.
    destruct (try_divisors O t divs qs) as [[[[qs' a] g]|]| |]; cbn [bind] in *; try reflexivity.
    + destruct (term_mul_poly m a g) as [ag| |]; cbn [bind] in *; try reflexivity.
      destruct (poly_sub f ag) as [f'| |]; cbn [bind] in *; try reflexivity. apply IH; [lia|exact N].
    + destruct (sort_by (term_cmp O) f) as [fs| |]; cbn [bind] in *; try reflexivity. destruct (vec_pop fs) as [f' [l|]].
      * destruct (poly_add_term rem l) as [rem'| |]; cbn [bind] in *; try reflexivity. apply IH; [lia|exact N].
      * apply IH; [lia|exact N].
Qed.
Lemma returns {F : FieldImpl} {K : MathField} (FS : FieldSpec F K) {O : ord_impl} (OS : OrderSpec O) (f : poly F) divs fuel : pwf FS f -> Forall (pwf FS) divs ->
  (forall k, fits (divide Debug O k f divs)) -> divide Debug O fuel f divs <> NoFuel -> exists r qs, divide Debug O fuel f divs = Ok (r, qs).
Proof.
  intros Wf Wd H N. destruct (C35_division_terminates FS OS f divs Wf Wd) as (M & [E|(r & qs & E)]).
  - exfalso. exact (H M (E M (Nat.le_refl M))).
  - exists r, qs. rewrite <- (E (Nat.max M fuel)) by lia. symmetry. apply divide_loop_stable; [lia|exact N].
Qed.

(** ** The orders of the crate *)
(** the four orders do not overflow on degrees with total at most 255 *)
Definition is_order (O : ord_impl) : Prop := O = lex_cmp \/ O = revlex_cmp \/ O = grlex_cmp Debug \/ O = grevlex_cmp Debug.
Lemma lex_fits a b : fits (lex_cmp a b).
Proof. discriminate. Qed.
Lemma grad_fits a b : mtot (canon a) <= 255 -> mtot (canon b) <= 255 -> fits (grad Debug a b).
Proof. intros H G. rewrite mtot_canon in *. unfold grad. rewrite !total_deg_debug. apply Nat.leb_le in H, G. rewrite H, G. discriminate. Qed.
Lemma order_fits O a b : is_order O -> mtot (canon a) <= 255 -> mtot (canon b) <= 255 -> fits (O a b).
Proof.
  intros [->|[->|[->| ->]]] H G; try discriminate.
  - unfold grlex_cmp. apply fits_bind'; [apply grad_fits; assumption|]. intros []; discriminate.
  - unfold grevlex_cmp. apply fits_bind'; [apply grad_fits; assumption|]. intros []; discriminate.
Qed.
Lemma graded_roomy n : roomy n grlex_spec (fun x => mtot x <= 255) /\ roomy n grevlex_spec (fun x => mtot x <= 255).
Proof.
  destruct C100_graded_orders as [G1 G2]. split; constructor.
  - intros x y H _ [->|L]; [exact H|]. apply G1 in L. lia.
  - intros a b _ _. apply order_fits. unfold is_order. auto.
  - intros x i H. pose proof (mexp_le_tot x i). lia.
  - intros x y H _ [->|L]; [exact H|]. apply G2 in L. lia.
  - intros a b _ _. apply order_fits. unfold is_order. auto.
  - intros x i H. pose proof (mexp_le_tot x i). lia.
Qed.
Lemma one_tot x : mvars 1 x -> mtot x = mexp x 0.
Proof.
  intros V. destruct (pad_mono 1 x V) as (l & L & E & S & _). destruct l as [|e [|? ?]]; try discriminate. rewrite <- S, <- E, canon_exp. unfold expo. cbn. lia.
Qed.
Lemma one_roomy O (OS : OrderSpec O) : is_order O -> roomy 1 OS (fun x => mvars 1 x /\ mexp x 0 <= 255).
Proof.
  intros IO. constructor.
  - intros x y [Vx H] Vy L. split; [exact Vy|]. pose proof (one_var OS y x Vy Vx L). lia.
  - intros a b _ _ [Va Ha] [Vb Hb]. apply order_fits; [exact IO| |]; rewrite one_tot; assumption.
  - intros x [|i] [V H]; [exact H|]. rewrite V by lia. lia.
Qed.

Section C124.
Context {F : FieldImpl} {K : MathField} (FS : FieldSpec F K) (RF : roomy_field F).
Notation val := (ip FS).
Notation clean := (pwf FS).
(** a polynomial in the first [n] variables of total degree at most [d] *)
Definition upto (n d : nat) (p : poly F) : Prop := svars n (val p) /\ forall x, coeff (val p) x <> k0 -> mtot x <= d.

(** graded orders: total degrees at most 255 suffice; binom(n+d, n) iterations *)
Theorem C124_graded : forall n d fuel (f : poly F) divs, clean f -> Forall clean divs -> upto n d f -> Forall (upto n 255) divs -> d <= 255 -> choose (n + d) n <= fuel ->
  (exists r qs, divide Debug (grlex_cmp Debug) fuel f divs = Ok (r, qs)) /\ (exists r qs, divide Debug (grevlex_cmp Debug) fuel f divs = Ok (r, qs)).
Proof.
  intros n d fuel f divs Wf Wd [Vf Hf] Hd D L. rewrite Forall_forall in Hd.
  assert (Vd : forall g, In g divs -> svars n (val g)) by (intros g Ig; apply Hd; exact Ig).
  assert (Bd : forall g x, In g divs -> coeff (val g) x <> k0 -> mtot x <= 255) by (intros g x Ig; apply Hd; exact Ig).
  assert (Bf : forall x, coeff (val f) x <> k0 -> mtot x <= 255) by (intros x X; specialize (Hf x X); lia).
  destruct C100_graded_orders as [G1 G2]. destruct (graded_roomy n) as [R1 R2]. split.
  - apply (returns FS grlex_spec); auto; [intros k; apply (C124_divide_fits FS grlex_spec RF n _ R1); auto|]. exact (C100_divide_graded FS grlex_spec G1 n d f divs fuel Wf Wd Vf Vd Hf L).
  - apply (returns FS grevlex_spec); auto; [intros k; apply (C124_divide_fits FS grevlex_spec RF n _ R2); auto|]. exact (C100_divide_graded FS grevlex_spec G2 n d f divs fuel Wf Wd Vf Vd Hf L).
Qed.
(** one variable, all four orders: deg f + 1 iterations *)
Theorem C124_univariate : forall O, OrderSpec O -> is_order O -> forall d fuel (f : poly F) divs, clean f -> Forall clean divs -> upto 1 d f -> Forall (upto 1 255) divs -> d <= 255 -> d < fuel ->
  exists r qs, divide Debug O fuel f divs = Ok (r, qs).
Proof.
  intros O OS IO d fuel f divs Wf Wd [Vf Hf] Hd D L. rewrite Forall_forall in Hd.
  assert (Vd : forall g, In g divs -> svars 1 (val g)) by (intros g Ig; apply Hd; exact Ig).
  assert (Hf' : forall x, coeff (val f) x <> k0 -> mexp x 0 <= d) by (intros x X; rewrite <- (one_tot x (Vf x X)); exact (Hf x X)).
  apply (returns FS OS); auto; [|exact (C100_divide_univariate FS OS d f divs fuel Wf Wd Vf Vd Hf' L)].
  intros k. apply (C124_divide_fits FS OS RF 1 _ (one_roomy O OS IO)); auto.
  - intros x X. split; [exact (Vf x X)|]. specialize (Hf' x X). lia.
  - intros g x Ig X. destruct (Hd g Ig) as [Vg Hg]. split; [exact (Vg x X)|]. rewrite <- (one_tot x (Vg x X)). exact (Hg x X).
Qed.
End C124.
(** a pure lexicographic order needs more room than its inputs: dividing x0^2 by x0 - x1^200 reaches x1^400 *)
Notation QI := (ideal_impl QcField).
Definition ex_f : poly QI := [@mkterm QI (1%Qc) [2]].
Definition ex_g : poly QI := [@mkterm QI (1%Qc) [1]; @mkterm QI ((-(1))%Qc) [0; 200]].
Lemma ex_run : divide Debug lex_cmp 2 ex_f [ex_g] = Panic Overflow.
Proof. vm_compute. reflexivity. Qed.
Lemma upto_terms {F : FieldImpl} {K : MathField} (FS : FieldSpec F K) n d (p : poly F) : pwf FS p -> Forall (fun t => length (tdeg t) <= n /\ list_sum (tdeg t) <= d) p -> upto FS n d p.
Proof.
  intros W H. rewrite Forall_forall in H. split.
  - intros x X. apply (pwf_support FS p x W) in X as (t & It & <-). intros i Hi. rewrite canon_exp. unfold expo. apply nth_overflow. destruct (H t It). lia.
  - intros x X. apply (pwf_support FS p x W) in X as (t & It & <-). rewrite mtot_canon. apply H. exact It.
Qed.
Lemma ex_tw (c : Qc) l : c <> 0%Qc -> mwf l -> twf (ideal_spec QcField) (@mkterm QI c l).
Proof. intros N W. split; [exact I|]. split; [exact N|exact W]. Qed.
Lemma ex_fg : pwf (ideal_spec QcField) ex_f /\ pwf (ideal_spec QcField) ex_g /\ upto (ideal_spec QcField) 2 255 ex_f /\ upto (ideal_spec QcField) 2 255 ex_g.
Proof.
  assert (Cf : pwf (ideal_spec QcField) ex_f).
  { split; [constructor; [|constructor]; apply ex_tw; [discriminate|apply mwf_b; reflexivity]|repeat constructor; cbn; intuition discriminate]. }
  assert (Cg : pwf (ideal_spec QcField) ex_g).
  { split; [constructor; [|constructor; [|constructor]]; (apply ex_tw; [discriminate|apply mwf_b; reflexivity])|repeat constructor; cbn; intuition discriminate]. }
  split; [exact Cf|]. split; [exact Cg|]. split; apply upto_terms; try assumption; repeat constructor; cbn; lia.
Qed.
Theorem C124_lex_refuted : ~ (forall (f g : poly QI) fuel, pwf (ideal_spec QcField) f -> pwf (ideal_spec QcField) g ->
  upto (ideal_spec QcField) 2 255 f -> upto (ideal_spec QcField) 2 255 g -> fits (divide Debug lex_cmp fuel f [g])).
Proof. intros H. destruct ex_fg as (A & B & C & D). exact (H ex_f ex_g 2 A B C D ex_run). Qed.
(** the same division with a graded order *)
Example C124_ex : exists r qs, divide Debug (grlex_cmp Debug) 6 ex_f [ex_g] = Ok (r, qs).
Proof.
  destruct ex_fg as (A & B & C & D). apply (C124_graded (ideal_spec QcField) (ideal_roomy QcField) 2 2 6 ex_f [ex_g]); [exact A|constructor; [exact B|constructor]| |constructor; [exact D|constructor]|lia|cbn; lia].
  apply upto_terms; [exact A|]. repeat constructor; cbn; lia.
Qed.
Print Assumptions C124_divide_fits.
Print Assumptions C124_graded.
Print Assumptions C124_univariate.
Print Assumptions C124_lex_refuted.
