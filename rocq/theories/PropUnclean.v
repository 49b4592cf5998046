(** * Property C99: polynomials with repeated degrees or zero coefficients.

    [Polynomial::new] removes zero terms but keeps repeated degrees, [new_unchecked], [term_unchecked]
    and the public [terms] field keep both, and [MultiDegree] is a public tuple struct whose vector may
    end in zeros; such polynomials can be handed to every operation.  [raw p] only asks for valid
    coefficients and u8 exponents. *)
From Coq Require Import QArith Qcanon.
From Verif Require Import Base BaseLemmas IntModel RatModel FieldIface RatProofs MDegModel OrdModel PolyModel CompModel
  MonoSpec MDegProofs OrdProofs PolySpec PolyProofs GroebnerSpec DivProofs Ideal.
From Coq Require Import Ring Field Setoid Morphisms Permutation Lia.

Local Open Scope nat_scope.

Section Unclean.
Context {F : FieldImpl} {K : MathField} (FS : FieldSpec F K).
Add Field Kf22 : (kth K).
Add Ring Pr22 : (@poly_ring K) (setoid (@peq_equiv K) (@poly_ring_ext K)).
Notation term := (term F).
Notation poly := (poly F).
Notation val := (ip FS).
Notation clean := (pwf FS).
Notation den := (den FS).
Notation it := (it FS).
Definition rawt (t : term) : Prop := fwf FS (coef t) /\ u8s (tdeg t).
Definition raw (p : poly) : Prop := Forall rawt p.

Lemma raw_of_okterm (t : term) : twf0 FS t -> rawt t.
Proof. intros [A [_ B]]. split; assumption. Qed.
Lemma raw_of_clean (p : poly) : clean p -> raw p.
Proof. intros [H _]. eapply Forall_impl; [|exact H]. intros t (A & _ & _ & B). split; assumption. Qed.
Lemma val_nil : val [] = @pzero K. Proof. reflexivity. Qed.

(** ** values of the operations *)
Lemma add_term_raw (p : poly) t : raw p -> rawt t ->
  safe (poly_add_term p t) (fun r => raw r /\ peq (val r) (padd (val p) (it t))).
Proof.
  intros Hp Ht. unfold poly_add_term. destruct (poly_is_zero p) eqn:Ez.
  { destruct p; [|discriminate]. simpl. unfold poly_from_term. destruct (term_is_zero t) eqn:Et.
    - split; [constructor|]. rewrite (it_zero FS t (proj1 Ht) Et). change (val poly_zero) with (@pzero K). change (val []) with (@pzero K). ring.
    - split; [constructor; [exact Ht|constructor]|]. change (val (poly_term t)) with (padd (it t) pzero). change (val []) with (@pzero K). ring. }
  destruct (term_is_zero t) eqn:Et.
  { simpl. split; [exact Hp|]. rewrite (it_zero FS t (proj1 Ht) Et). ring. }
  destruct (position _ p) as [i|] eqn:Ep.
  - apply position_Some in Ep as (l1 & x & l2 & -> & <- & Ed & _). apply mdeg_eqb_eq in Ed.
    unfold vget. rewrite nth_error_app2, Nat.sub_diag by lia. simpl.
    apply Forall_app in Hp as [H1 H2]. inversion H2 as [|? ? Wx H3]; subst.
    eapply safe_bind; [apply (add_ok _ _ FS); [apply Wx|apply Ht]|]. intros c [Wc Dc].
    assert (Eq : peq (val (l1 ++ @mkterm F c (tdeg x) :: l2)) (padd (val (l1 ++ x :: l2)) (it t))).
    { rewrite !ip_app, !ip_cons. unfold PolyProofs.it at 1. simpl. rewrite Dc, pterm_add.
      unfold PolyProofs.it. rewrite Ed. ring. }
    cbv beta zeta. destruct (term_is_zero (mkterm c (tdeg x))) eqn:Ez2; unfold safe.
    + rewrite list_remove_split. split; [apply Forall_app; split; assumption|].
      rewrite <- Eq, !ip_app, ip_cons, (it_zero FS (mkterm c (tdeg x)) Wc Ez2). ring.
    + rewrite list_set_split. split; [|exact Eq]. apply Forall_app. split; [assumption|].
      constructor; [|assumption]. split; [exact Wc|apply Wx].
  - simpl. split; [apply Forall_app; split; [exact Hp|]; constructor; [exact Ht|constructor]|].
    rewrite ip_app. reflexivity.
Qed.
Lemma add_raw (p q : poly) : raw p -> raw q ->
  safe (poly_add p q) (fun r => raw r /\ peq (val r) (padd (val p) (val q))).
Proof.
  intros Hp Hq. unfold poly_add. revert p Hp. induction Hq as [|t q Ht Hq IH]; intros p Hp; simpl.
  - split; [exact Hp|]. rewrite ip_nil. ring.
  - eapply safe_bind; [apply add_term_raw; assumption|]. intros r [Wr Er].
    eapply safe_mono; [apply IH; exact Wr|]. intros r' [Wr' Er']. split; [exact Wr'|].
    rewrite Er', Er, ip_cons. ring.
Qed.
Lemma term_neg_raw (t : term) : rawt t -> safe (term_neg t) (fun r => rawt r /\ peq (it r) (popp (it t))).
Proof.
  intros Ht. unfold term_neg. eapply safe_bind; [apply (neg_ok _ _ FS); apply Ht|]. intros c [Wc Dc]. simpl.
  split; [split; [exact Wc|apply Ht]|]. unfold PolyProofs.it. simpl. rewrite Dc. apply pterm_opp.
Qed.
Lemma neg_raw (p : poly) : raw p -> safe (poly_neg p) (fun r => raw r /\ peq (val r) (popp (val p))).
Proof.
  unfold poly_neg. induction 1 as [|t p Ht Hp IH]; simpl.
  - split; [constructor|]. rewrite ip_nil. ring.
  - eapply safe_bind; [apply term_neg_raw; exact Ht|]. intros u [Wu Eu]. eapply safe_bind; [exact IH|]. intros r [Wr Er].
    simpl. split; [constructor; assumption|]. rewrite !ip_cons, Eu, Er. ring.
Qed.
Lemma sub_raw (p q : poly) : raw p -> raw q ->
  safe (poly_sub p q) (fun r => raw r /\ peq (val r) (psub (val p) (val q))).
Proof.
  intros Hp Hq. unfold poly_sub. eapply safe_bind; [apply neg_raw; exact Hq|].
  intros nq [W E]. eapply safe_mono; [apply add_raw; assumption|]. intros r [Wr Er]. split; [exact Wr|].
  rewrite Er, E. reflexivity.
Qed.
Lemma term_mul_raw (a b : term) : rawt a -> rawt b ->
  safe (term_mul Debug a b) (fun r => rawt r /\ canonical (tdeg r) /\ peq (it r) (pmul (it a) (it b))).
Proof.
  intros Ha Hb. unfold term_mul.
  assert (Z : rawt (@term_zero F) /\ canonical (tdeg (@term_zero F))).
  { split; [apply raw_of_okterm; apply term_zero_wf|discriminate]. }
  destruct (term_is_zero a) eqn:Ea; simpl.
  { split; [apply Z|]. split; [apply Z|]. rewrite it_term_zero, (it_zero FS a (proj1 Ha) Ea). ring. }
  destruct (term_is_zero b) eqn:Eb; simpl.
  { split; [apply Z|]. split; [apply Z|]. rewrite it_term_zero, (it_zero FS b (proj1 Hb) Eb). ring. }
  eapply safe_bind; [apply (mul_ok _ _ FS); [apply Ha|apply Hb]|]. intros c [Wc Dc].
  eapply safe_bind; [apply mdeg_add_safe; [apply Ha|apply Hb]|]. intros d [Wd Ed]. simpl.
  split; [split; [exact Wc|apply Wd]|]. split; [apply Wd|].
  unfold PolyProofs.it. simpl. rewrite pterm_mul, Dc, Ed. reflexivity.
Qed.
Lemma mul_term_raw (p : poly) t : raw p -> rawt t ->
  safe (poly_mul_term Debug p t) (fun r => raw r /\ Forall (fun s => canonical (tdeg s)) r /\ peq (val r) (pmul (val p) (it t))).
Proof.
  intros Hp Ht. unfold poly_mul_term.
  destruct (term_is_zero t) eqn:Et; simpl.
  { split; [constructor|]. split; [constructor|]. rewrite (it_zero FS t (proj1 Ht) Et). change (val poly_zero) with (@pzero K). ring. }
  destruct (poly_is_zero p) eqn:Ez.
  { destruct p; [|discriminate]. simpl. split; [constructor|]. split; [constructor|]. change (val poly_zero) with (@pzero K). change (val []) with (@pzero K). ring. }
  clear Ez. induction Hp as [|s p Hs Hp IH]; simpl.
  - split; [constructor|]. split; [constructor|]. rewrite ip_nil. ring.
  - eapply safe_bind; [apply term_mul_raw; [exact Hs|exact Ht]|]. intros s' (Ws & Cs & Es).
    eapply safe_bind; [exact IH|]. intros r (Wr & Cr & Er). simpl.
    split; [constructor; assumption|]. split; [constructor; assumption|]. rewrite !ip_cons, Es, Er. ring.
Qed.
Lemma mul_raw (p q : poly) : raw p -> raw q ->
  safe (poly_mul Debug p q) (fun r => raw r /\ peq (val r) (pmul (val p) (val q))).
Proof.
  intros Hp Hq. unfold poly_mul, reduce_iter. destruct Hp as [|t p Ht Hp]; simpl.
  { split; [constructor|]. change (val poly_zero) with (@pzero K). change (val []) with (@pzero K). ring. }
  assert (G : forall acc (A : spoly K), raw acc -> peq (val acc) A ->
     safe (foldM (fun acc y => b <- y ;; poly_add acc b) (map (fun t => term_mul_poly Debug t q) p) acc)
       (fun r => raw r /\ peq (val r) (padd A (pmul (val p) (val q))))).
  { clear t Ht. induction Hp as [|t p Ht Hp IH]; intros acc A Wa Ea; simpl.
    - split; [exact Wa|]. rewrite Ea. change (val []) with (@pzero K). ring.
    - rewrite bind_assoc. eapply safe_bind; [apply (mul_term_raw q t); assumption|]. intros b (Wb & _ & Eb).
      eapply safe_bind; [apply add_raw; [exact Wa|exact Wb]|]. intros acc' [Wa' Ea'].
      eapply safe_mono; [apply (IH acc' (padd A (pmul (it t) (val q))) Wa')|].
      + rewrite Ea', Ea, Eb. ring.
      + intros r [Wr Er]. split; [exact Wr|]. rewrite Er, ip_cons. ring. }
  rewrite bind_assoc. eapply safe_bind; [apply (mul_term_raw q t); assumption|]. intros b (Wb & _ & Eb).
  rewrite bind_assoc. eapply safe_bind; [apply (G b _ Wb Eb)|]. intros r [Wr Er]. simpl.
  split; [exact Wr|]. rewrite Er, ip_cons. ring.
Qed.
Lemma scale_raw (p : poly) c : raw p -> fwf FS c ->
  safe (poly_scale Debug p c) (fun r => raw r /\ peq (val r) (pscale (den c) (val p))).
Proof.
  intros Hp Hc. unfold poly_scale. eapply safe_mono; [apply mul_term_raw; [exact Hp|split; [exact Hc|constructor]]|].
  intros r (W & _ & E). split; [exact W|]. rewrite E. unfold pscale, PolyProofs.it. simpl.
  rewrite tmul_pmul. change (canon mdeg_zero) with mone. ring.
Qed.
Lemma eval_raw (p : poly) x : raw p -> Forall (fwf FS) x -> Forall (fun t => length (tdeg t) <= length x) p ->
  safe (poly_eval p x) (fun z => fwf FS z /\ den z = peval (pt FS x) (val p)).
Proof.
  intros Hp Hx L.
  assert (T : forall t, rawt t -> length (tdeg t) <= length x ->
    safe (term_eval t x) (fun z => fwf FS z /\ den z = peval (pt FS x) (it t))).
  { intros t Ht Lt. unfold term_eval, mdeg_len. rewrite (proj2 (Nat.ltb_ge _ _) Lt).
    eapply safe_mono; [apply (eval_fold FS); auto; apply Ht|]. intros z [Wz Dz]. split; [exact Wz|].
    rewrite Dz. unfold peval. rewrite ev_it.
    assert (V : mvars (length (tdeg t)) (canon (tdeg t))).
    { intros i Hi. rewrite canon_exp. unfold expo. apply nth_overflow. exact Hi. }
    rewrite (mval_up_eq _ _ _ V), mval_up_prod.
    f_equal. apply kprod_up_ext. intros i _. rewrite canon_exp. reflexivity. }
  unfold poly_eval.
  assert (A : Forall (fun r => safe r (fwf FS)) (map (fun t => term_eval t x) p)).
  { apply Forall_map. unfold raw in Hp. rewrite Forall_forall in *. intros t I.
    eapply safe_mono; [apply T; auto|]. intros z [W _]. exact W. }
  eapply safe_mono; [apply (sum_ok _ _ FS); exact A|]. intros z (Wz & vs & E & Dz). split; [exact Wz|].
  rewrite Dz. clear A Dz Wz z. revert vs E. induction Hp as [|t p Ht Hp IH]; intros [|v vs] E; try discriminate.
  - reflexivity.
  - inversion L as [|? ? L1 L2]; subst. simpl in E. injection E as E1 E2.
    rewrite ip_cons. unfold peval, padd. rewrite ev_app. fold (peval (pt FS x) (val p)).
    unfold ksum in *. cbn [map fold_right]. rewrite (IH L2 vs E2). f_equal.
    apply (safe_val _ _ _ (T t Ht L1)). exact E1.
Qed.

(** sums, differences, negatives, multiples, products and values are right without cleanness *)
Theorem C99_values : forall (p q : poly) (c : F) x, raw p -> raw q -> fwf FS c -> Forall (fwf FS) x ->
  Forall (fun t => length (tdeg t) <= length x) p ->
  safe (poly_add p q) (fun r => raw r /\ forall d, coeff (val r) d = kadd (coeff (val p) d) (coeff (val q) d)) /\
  safe (poly_sub p q) (fun r => raw r /\ forall d, coeff (val r) d = ksub (coeff (val p) d) (coeff (val q) d)) /\
  safe (poly_neg p) (fun r => raw r /\ forall d, coeff (val r) d = kopp (coeff (val p) d)) /\
  safe (poly_scale Debug p c) (fun r => raw r /\ forall d, coeff (val r) d = kmul (den c) (coeff (val p) d)) /\
  safe (poly_mul Debug p q) (fun r => raw r /\ peq (val r) (pmul (val p) (val q))) /\
  safe (poly_eval p x) (fun z => fwf FS z /\ den z = peval (pt FS x) (val p)).
Proof.
  intros p q c x Hp Hq Hc Hx L. repeat match goal with |- _ /\ _ => split end.
  - eapply safe_mono; [apply add_raw; assumption|]. intros r [W E]. split; [exact W|]. intros d. rewrite E. apply coeff_add.
  - eapply safe_mono; [apply sub_raw; assumption|]. intros r [W E]. split; [exact W|]. intros d. rewrite E. apply coeff_sub.
  - eapply safe_mono; [apply neg_raw; assumption|]. intros r [W E]. split; [exact W|]. intros d. rewrite E. apply coeff_opp.
  - eapply safe_mono; [apply scale_raw; assumption|]. intros r [W E]. split; [exact W|]. intros d. rewrite E. apply coeff_scale.
  - apply mul_raw; assumption.
  - apply eval_raw; assumption.
Qed.

(** adding to a clean polynomial, in particular to zero, cleans (if the degrees are canonical);
    multiplying by a term makes the degrees canonical *)
Theorem C99_cleaning : forall (p q : poly) t, clean p -> raw q -> rawt t ->
  (Forall (fun s => canonical (tdeg s)) q ->
   safe (poly_add p q) (fun r => clean r /\ forall d, coeff (val r) d = kadd (coeff (val p) d) (coeff (val q) d))) /\
  safe (poly_mul_term Debug q t) (fun r => Forall (fun s => canonical (tdeg s)) r /\ peq (val r) (pmul (val q) (it t))).
Proof.
  intros p q t Hp Hq Ht. split.
  - intros C. assert (W : Forall (twf0 FS) q).
    { unfold raw in Hq. rewrite Forall_forall in *. intros s Is. destruct (Hq s Is) as [A B]. split; [exact A|]. split; [exact (C s Is)|exact B]. }
    eapply safe_mono; [apply (poly_add_ok FS); assumption|]. intros r [W' E]. split; [exact W'|].
    intros d. rewrite E. apply coeff_add.
  - eapply safe_mono; [apply mul_term_raw; assumption|]. intros r (_ & A & B). split; assumption.
Qed.

(** ** division, when it returns *)
Lemma max_by_in {A} (cmp : A -> A -> res comparison) l o : max_by cmp l = Ok o ->
  match o with None => l = [] | Some t => In t l end.
Proof.
  unfold max_by. destruct l as [|x xs]; [intros E; injection E as <-; reflexivity|]. intros E.
  apply bind_Ok in E as (r & E & E'). injection E' as <-. revert x E. induction xs as [|y ys IH]; intros x E.
  - injection E as <-. left. reflexivity.
  - cbn [foldM] in E. apply bind_Ok in E as (b & Eb & E). apply bind_Ok in Eb as (c & _ & Eb). injection Eb as <-.
    apply IH in E. destruct E as [E|E]; [|right; right; exact E]. rewrite <- E. destruct c; [right; left|right; left|left]; reflexivity.
Qed.
Lemma insert_perm {A} (cmp : A -> A -> res comparison) x : forall l r, insert_by cmp x l = Ok r -> Permutation (x :: l) r.
Proof.
  induction l as [|y l IH]; intros r E; cbn [insert_by] in E; [injection E as <-; reflexivity|].
  apply bind_Ok in E as (c & _ & E). destruct c.
  all: try (injection E as <-; reflexivity).
  all: apply bind_Ok in E as (r' & Er & E); injection E as <-; rewrite perm_swap; constructor; apply IH; exact Er.
Qed.
Lemma sort_perm {A} (cmp : A -> A -> res comparison) : forall l r, sort_by cmp l = Ok r -> Permutation l r.
Proof.
  induction l as [|x l IH]; intros r E; cbn [sort_by] in E; [injection E as <-; constructor|].
  apply bind_Ok in E as (r' & Er & E). apply insert_perm in E. rewrite (IH r' Er). exact E.
Qed.

Section AnyOrder.
Context (O : ord_impl).
Lemma leading_raw (f : poly) o : raw f -> leading_term O f = Ok o ->
  match o with None => f = [] | Some t => rawt t end.
Proof.
  intros H E. apply max_by_in in E. destruct o as [t|]; [|exact E]. unfold raw in H. rewrite Forall_forall in H. auto.
Qed.
Lemma checked_sub_u8 a b d : u8s a -> mdeg_checked_sub a b = Some d -> u8s d.
Proof.
  intros Ua. unfold mdeg_checked_sub. destruct (mdeg_is_zero b); [intros E; injection E as <-; exact Ua|].
  destruct (mdeg_is_zero a); [discriminate|].
  assert (G : forall ps degs zc, Forall (fun p => match p with Both x _ | Left x => x <= 255 | Right _ => True end) ps ->
    u8s degs -> forall d, checked_sub_loop ps degs zc = Some d -> u8s d).
  { assert (Z : forall zc, u8s (repeat 0 zc)) by (intros zc; apply Forall_forall; intros x I; apply repeat_spec in I; lia).
    induction ps as [|[x y|x|y] ps IH]; intros degs zc Hp Hd d' E; cbn [checked_sub_loop] in E.
    - injection E as <-. exact Hd.
    - inversion Hp; subst. destruct (x ?= y); [eapply IH; eassumption|discriminate|].
      eapply IH; [eassumption| |exact E]. apply Forall_app. split; [exact Hd|]. apply Forall_app. split; [apply Z|].
      constructor; [lia|constructor].
    - inversion Hp; subst. eapply IH; [eassumption| |exact E]. apply Forall_app. split; [exact Hd|]. apply Forall_app. split; [apply Z|].
      constructor; [assumption|constructor].
    - discriminate. }
  apply G; [|constructor]. clear G. revert b. induction Ua as [|x a Hx Ha IH]; intros b.
  - destruct b as [|y b]; simpl; [constructor|]. constructor; [exact I|]. apply Forall_map, Forall_forall. intros; exact I.
  - destruct b as [|y b]; simpl; (constructor; [exact Hx|]); apply IH.
Qed.
Lemma try_div_raw (a b : term) o : rawt a -> rawt b -> term_try_div a b = Ok o -> match o with Some q => rawt q | None => True end.
Proof.
  intros Ha Hb E. unfold term_try_div in E. destruct (term_is_zero a) eqn:Za.
  { injection E as <-. apply raw_of_okterm. apply term_zero_wf. }
  destruct (term_is_zero b) eqn:Zb; [injection E as <-; exact I|].
  apply bind_Ok in E as (c & Ec & E).
  assert (Nb : den (coef b) <> k0) by (apply (is_zero_false FS b (proj1 Hb)); exact Zb).
  destruct (safe_val _ _ _ (FieldIface.div_ok _ _ FS _ _ (proj1 Ha) (proj1 Hb) Nb) Ec) as [Wc _].
  destruct (mdeg_checked_sub (tdeg a) (tdeg b)) as [d|] eqn:Ed; injection E as <-; [|exact I].
  split; [exact Wc|]. exact (checked_sub_u8 _ _ _ (proj2 Ha) Ed).
Qed.
Lemma try_divisors_raw (t : term) : rawt t -> forall divs quots o, Forall raw divs -> Forall raw quots ->
  length quots = length divs -> try_divisors O t divs quots = Ok o -> match o with
    | Some (quots', a, g) => rawt a /\ In g divs /\ Forall raw quots' /\ length quots' = length divs /\
        peq (lincomb (map val quots') (map val divs)) (padd (lincomb (map val quots) (map val divs)) (pmul (it a) (val g)))
    | None => True
    end.
Proof.
  intros Ht. induction divs as [|g divs IH]; intros [|q quots] o Wd Wq L E; try discriminate; [injection E as <-; exact I|].
  inversion Wd as [|? ? Wg Wd']; subst. inversion Wq as [|? ? Wq1 Wq']; subst. cbn [try_divisors] in E.
  assert (Skip : (r <- try_divisors O t divs quots ;;
        Ok (match r with None => None | Some (qs, a, g') => Some (q :: qs, a, g') end)) = Ok o -> match o with
    | Some (quots', a, g') => rawt a /\ In g' (g :: divs) /\ Forall raw quots' /\ length quots' = length (g :: divs) /\
        peq (lincomb (map val quots') (map val (g :: divs))) (padd (lincomb (map val (q :: quots)) (map val (g :: divs))) (pmul (it a) (val g')))
    | None => True
    end).
  { intros X. apply bind_Ok in X as (r & Er & X). apply (IH quots r Wd' Wq') in Er; [|injection L as L; exact L].
    destruct r as [[[qs a] g']|]; injection X as <-; [|exact I].
    destruct Er as (Wa & Ig & Wqs & Lq & Eq). split; [exact Wa|]. split; [right; exact Ig|].
    split; [constructor; assumption|]. split; [exact (f_equal S Lq)|]. cbn [map lincomb]. rewrite Eq. ring. }
  apply bind_Ok in E as (lg & El & E). apply leading_raw in El; [|exact Wg]. destruct lg as [lg|]; [|exact (Skip E)].
  apply bind_Ok in E as (a & Ea & E). apply try_div_raw in Ea; [|assumption..]. destruct a as [a|]; [|exact (Skip E)].
  apply bind_Ok in E as (q' & Eq & E). injection E as <-. destruct (safe_val _ _ _ (add_term_raw q a Wq1 Ea) Eq) as [Wq2 V].
  split; [exact Ea|]. split; [left; reflexivity|]. split; [constructor; assumption|]. split; [exact L|].
  cbn [map lincomb]. rewrite V. ring.
Qed.
Lemma divide_loop_raw divs : Forall raw divs -> forall fuel (f : poly) quots rem r qs, raw f ->
  Forall raw quots -> length quots = length divs -> raw rem ->
  divide_loop Debug O fuel f divs quots rem = Ok (r, qs) ->
  raw r /\ Forall raw qs /\ length qs = length divs /\
  peq (padd (lincomb (map val qs) (map val divs)) (val r)) (padd (val f) (padd (lincomb (map val quots) (map val divs)) (val rem))).
Proof.
  intros Wd. induction fuel as [|n IH]; intros f quots rem r qs Wf Wq L Wr E; cbn [divide_loop] in E;
    apply bind_Ok in E as (o & Eo & E); pose proof (leading_raw f o Wf Eo) as Ho;
    destruct o as [t|]; try discriminate.
  - injection E as <- <-. subst f. split; [exact Wr|]. split; [exact Wq|]. split; [exact L|]. change (val []) with (@pzero K). ring.
  - apply bind_Ok in E as (o & Et & E).
    pose proof (try_divisors_raw t Ho divs quots o Wd Wq L Et) as H.
    destruct o as [[[qs' a] g]|].
    + destruct H as (Wa & Ig & Wqs & Lq & Eq). apply bind_Ok in E as (ag & Eag & E). apply bind_Ok in E as (f' & Ef & E).
      assert (Wg : raw g) by (rewrite Forall_forall in Wd; auto).
      destruct (safe_val _ _ _ (mul_term_raw g a Wg Wa) Eag) as (Wag & _ & Vag).
      destruct (safe_val _ _ _ (sub_raw f ag Wf Wag) Ef) as [Wf' Vf'].
      destruct (IH f' qs' rem r qs Wf' Wqs Lq Wr E) as (A & B & C & D). split; [exact A|]. split; [exact B|]. split; [exact C|].
      rewrite D, Eq, Vf', Vag. ring.
    + apply bind_Ok in E as (fs & Es & E). pose proof (sort_perm _ _ _ Es) as P.
      assert (Wfs : raw fs) by (unfold raw; rewrite <- P; exact Wf). pose proof (ip_perm FS f fs P) as Vf.
      pose proof (vec_pop_spec fs) as Hv. destruct (vec_pop fs) as [f' [l|]].
      * subst fs. apply Forall_app in Wfs as [Wf' Wl]. inversion Wl as [|? ? Wl' _]; subst.
        apply bind_Ok in E as (rem' & Erem & E). destruct (safe_val _ _ _ (add_term_raw rem l Wr Wl') Erem) as [Wrem' Vrem].
        destruct (IH f' quots rem' r qs Wf' Wq L Wrem' E) as (A & B & C & D). split; [exact A|]. split; [exact B|]. split; [exact C|].
        rewrite D, Vrem, Vf, ip_app, ip_cons. change (val []) with (@pzero K). ring.
      * destruct Hv as [-> ->]. destruct (IH [] quots rem r qs (Forall_nil _) Wq L Wr E) as (A & B & C & D).
        split; [exact A|]. split; [exact B|]. split; [exact C|]. rewrite D, Vf. reflexivity.
  - injection E as <- <-. subst f. split; [exact Wr|]. split; [exact Wq|]. split; [exact L|]. change (val []) with (@pzero K). ring.
Qed.

(** the division identity needs no cleanness, and nothing of the order *)
Theorem C99_division_identity : forall fuel (f : poly) divs r qs, raw f -> Forall raw divs ->
  divide Debug O fuel f divs = Ok (r, qs) ->
  length qs = length divs /\ peq (val f) (padd (lincomb (map val qs) (map val divs)) (val r)).
Proof.
  intros fuel f divs r qs Wf Wd E. unfold divide in E.
  assert (Z : peq (lincomb (map val (repeat poly_zero (length divs))) (map val divs)) pzero).
  { clear. induction divs as [|g divs IH]; [reflexivity|]. cbn [length repeat map lincomb]. rewrite IH.
    change (val poly_zero) with (@pzero K). ring. }
  apply (divide_loop_raw divs Wd) in E as (_ & _ & L & D); try assumption.
  - split; [exact L|]. rewrite D, Z. change (val poly_zero) with (@pzero K). ring.
  - apply Forall_forall. intros p Ip. apply repeat_spec in Ip. subst p. constructor.
  - apply repeat_length.
  - constructor.
Qed.
End AnyOrder.

Section Order.
Context {O : ord_impl} (OS : OrderSpec O).
Notation okterm := (twf0 FS).
Notation valid := (Forall (twf0 FS)).
Let laws := olaws _ OS.
(** ** two terms of the same degree *)
Fixpoint times (n : nat) (x : K) : K := match n with 0 => k0 | S n' => kadd (times n' x) x end.

Lemma two_lead (s t : term) o : okterm s -> okterm t -> tdeg s = tdeg t -> leading_term O [s; t] = Ok o -> o = Some t.
Proof.
  intros Ws Wt D E. assert (W : valid [s; t]) by (constructor; [exact Ws|constructor; [exact Wt|constructor]]).
  pose proof (safe_val _ _ _ (max_by_ok FS OS [s; t] W) E) as H. cbv beta in H. destruct o as [u|]; [|discriminate].
  destruct H as (pre & post & Eq & _ & H). destruct pre as [|a [|b pre]]; cbn in Eq.
  - injection Eq as <- <-. inversion H as [|? ? X _]; subst. exfalso. rewrite D in X. exact (lt_irrefl _ laws _ X).
  - injection Eq as _ <- <-. reflexivity.
  - injection Eq as _ _ Eq. destruct pre; discriminate.
Qed.

Lemma two_step (g : term) (t : term) : twf FS g -> twf FS t -> mdiv (canon (tdeg g)) (canon (tdeg t)) ->
  forall fuel (s : term) q rem r qs, twf FS s -> tdeg s = tdeg t -> (forall n, den (coef s) <> times n (den (coef t))) ->
  divide_loop Debug O fuel [s; t] [[g]] [q] rem <> Ok (r, qs).
Proof.
  intros Wg Wt Dv. induction fuel as [|fuel IH]; intros s q rem r qs Ws D N E; cbn [divide_loop] in E;
    apply bind_Ok in E as (o & Eo & E); apply two_lead in Eo; try (apply twf_split; assumption); try assumption; subst o; [discriminate|].
  apply bind_Ok in E as (o & Et & E). cbn [try_divisors] in Et.
  apply bind_Ok in Et as (lg & El & Et). cbn in El. injection El as <-.
  apply bind_Ok in Et as (a & Ea & Et).
  pose proof (safe_val _ _ _ (term_try_div_ok FS t g Wt Wg) Ea) as Ha. cbv beta in Ha. destruct a as [a|]; [|contradiction].
  destruct Ha as (Wa & Ca & Da). apply bind_Ok in Et as (q' & _ & Et). injection Et as <-.
  apply bind_Ok in E as (ag & Eag & E). apply bind_Ok in E as (f' & Ef & E).
  unfold term_mul_poly, poly_mul_term in Eag.
  rewrite (proj2 (is_zero_false FS a (proj1 Wa)) (proj1 (proj2 Wa))) in Eag. cbn [orb poly_is_zero mapM] in Eag.
  apply bind_Ok in Eag as (u & Eu & Eag). cbn [bind] in Eag. injection Eag as <-.
  assert (Wg0 : twf0 FS g) by (apply twf_split; exact Wg). assert (Wa0 : twf0 FS a) by (apply twf_split; exact Wa).
  assert (Wt0 : twf0 FS t) by (apply twf_split; exact Wt).
  pose proof (safe_val _ _ _ (term_mul_ok FS g a Wg0 Wa0) Eu) as (Wu0 & Vu & Hu). destruct (Hu Wg Wa) as [Wu Cu].
  assert (Du : tdeg u = tdeg t) by (apply canon_inj; [apply Wu|apply Wt|rewrite Cu, Ca; reflexivity]).
  assert (Ku : den (coef u) = den (coef t)).
  { unfold term_mul in Eu. rewrite (proj2 (is_zero_false FS a (proj1 Wa)) (proj1 (proj2 Wa))),
      (proj2 (is_zero_false FS g (proj1 Wg)) (proj1 (proj2 Wg))) in Eu. cbn [orb] in Eu.
    apply bind_Ok in Eu as (c & Ec & Eu). apply bind_Ok in Eu as (dd & _ & Eu). injection Eu as <-. cbn [coef].
    destruct (safe_val _ _ _ (mul_ok _ _ FS (coef g) (coef a) (proj1 Wg) (proj1 Wa)) Ec) as [_ ->]. rewrite Da.
    field. apply Wg. }
  unfold poly_sub, poly_neg in Ef. cbn [mapM] in Ef. apply bind_Ok in Ef as (nl & En & Ef).
  apply bind_Ok in En as (nu & Enu & En). cbn [bind] in En. injection En as <-.
  pose proof (safe_val _ _ _ (term_neg_ok FS u Wu0) Enu) as (_ & Wnu & Dnu & _). specialize (Wnu Wu).
  assert (Knu : den (coef nu) = kopp (den (coef u))).
  { unfold term_neg in Enu. apply bind_Ok in Enu as (c & Ec & Enu). injection Enu as <-. cbn [coef].
    apply (safe_val _ _ _ (neg_ok _ _ FS (coef u) (proj1 Wu)) Ec). }
  unfold poly_add in Ef. cbn [foldM] in Ef. apply bind_Ok in Ef as (f'' & Ef & Ef').
  injection Ef' as ->. unfold poly_add_term in Ef. cbn [poly_is_zero] in Ef.
  rewrite (proj2 (is_zero_false FS nu (proj1 Wnu)) (proj1 (proj2 Wnu))) in Ef.
  cbn [position] in Ef. rewrite (proj2 (mdeg_eqb_eq (tdeg s) (tdeg nu))) in Ef by congruence. cbn [vget nth_error bind] in Ef.
  cbv beta iota zeta in Ef.
  apply bind_Ok in Ef as (c & Ec & Ef).
  destruct (safe_val _ _ _ (add_ok _ _ FS (coef s) (coef nu) (proj1 Ws) (proj1 Wnu)) Ec) as [Wc Kc].
  assert (Kc' : kadd (den c) (den (coef t)) = den (coef s)) by (rewrite Kc, Knu, Ku; ring).
  assert (Nc : forall n, den c <> times n (den (coef t))).
  { intros n X. apply (N (S n)). cbn [times]. rewrite <- X. symmetry. exact Kc'. }
  assert (Ws' : twf FS (@mkterm F c (tdeg s))) by (split; [exact Wc|]; split; [exact (Nc 0)|apply Ws]).
  rewrite (proj2 (is_zero_false FS (@mkterm F c (tdeg s)) Wc) (Nc 0)) in Ef. cbn [list_set] in Ef. injection Ef as <-.
  exact (IH (@mkterm F c (tdeg s)) q' rem r qs Ws' D Nc E).
Qed.

(** two nonzero terms of one degree, the first no natural multiple of the second: division by a term
    dividing them returns no result with any amount of fuel *)
Theorem C99_repeated_degree_no_result : forall (s t g : term) fuel, twf FS s -> twf FS t -> twf FS g -> tdeg s = tdeg t ->
  mdiv (canon (tdeg g)) (canon (tdeg t)) -> (forall n, den (coef s) <> times n (den (coef t))) ->
  forall r qs, divide Debug O fuel [s; t] [[g]] <> Ok (r, qs).
Proof. intros s t g fuel Ws Wt Wg D Dv N r qs. exact (two_step g t Wg Wt Dv fuel s [] [] r qs Ws D N). Qed.
End Order.
End Unclean.

(** ** a leading term with coefficient zero *)
Section ZeroTerm.
Context {F : FieldImpl} (Z0 : @feqb F f0 f0 = true) (m : mode) (O : ord_impl).

Lemma tz : @term_is_zero F term_zero = true.
Proof. exact Z0. Qed.
Lemma zero_divisors (t : term F) pre (g : poly F) rest lg : term_is_zero t = true -> Forall (fun p => p = []) pre ->
  leading_term O g = Ok (Some lg) -> forall q0 q qr, length q0 = length pre -> Forall (fun p => p = []) q0 -> q = [] ->
  try_divisors O t (pre ++ g :: rest) (q0 ++ q :: qr) = Ok (Some (q0 ++ q :: qr, term_zero, g)).
Proof.
  intros Zt Hp Eg. induction Hp as [|p pre -> Hp IH]; intros q0 q qr L Hq ->.
  - destruct q0; [|discriminate]. cbn [app try_divisors]. rewrite Eg. cbn [bind]. unfold term_try_div. rewrite Zt. cbn [bind].
    unfold poly_add_term. cbn [poly_is_zero]. unfold poly_from_term. rewrite tz. reflexivity.
  - destruct q0 as [|a q0]; [discriminate|]. cbn [app try_divisors]. cbn [leading_term max_by bind].
    injection L as L. inversion Hq; subst. change (leading_term O []) with (@Ok (option (term F)) None). cbn [bind].
    rewrite (IH q0 [] qr L) by auto. reflexivity.
Qed.
Lemma zero_lead_loop (f : poly F) t pre g rest lg : leading_term O f = Ok (Some t) -> term_is_zero t = true ->
  Forall (fun p => p = []) pre -> leading_term O g = Ok (Some lg) ->
  forall fuel q0 qr rem, length q0 = length pre -> Forall (fun p => p = []) q0 ->
  divide_loop m O fuel f (pre ++ g :: rest) (q0 ++ [] :: qr) rem = NoFuel.
Proof.
  intros Ef Zt Hp Eg. induction fuel as [|n IH]; intros q0 qr rem L Hq; cbn [divide_loop]; rewrite Ef; cbn [bind]; [reflexivity|].
  rewrite (zero_divisors t pre g rest lg Zt Hp Eg q0 [] qr L Hq eq_refl). cbn [bind].
  unfold term_mul_poly, poly_mul_term. rewrite tz. cbn [orb bind].
  unfold poly_sub, poly_neg, poly_add. cbn [mapM poly_zero foldM bind]. apply IH; assumption.
Qed.

(** the first nonempty divisor is chosen with factor zero and the state never changes: no termination, whatever
    the coefficient type, the order, the build mode and the divisors *)
Theorem C99_zero_leading_term_diverges : forall (f : poly F) t pre g rest lg, leading_term O f = Ok (Some t) -> term_is_zero t = true ->
  Forall (fun p => p = []) pre -> leading_term O g = Ok (Some lg) ->
  forall fuel, divide m O fuel f (pre ++ g :: rest) = NoFuel.
Proof.
  intros f t pre g rest lg Ef Zt Hp Eg fuel. unfold divide. rewrite app_length, repeat_app. cbn [length repeat].
  apply (zero_lead_loop f t pre g rest lg Ef Zt Hp Eg); [apply repeat_length|].
  apply Forall_forall. intros p Ip. exact (repeat_spec _ _ _ Ip).
Qed.
End ZeroTerm.

(** ** Numbers that do not overflow: the division never ends *)
Section IdealRepeated.
Context (K : MathField) (m : mode) (O : ord_impl) (k : nat) (EO : O [S k] [S k] = Ok Eq).
Add Field Kf23 : (kth K).
Notation G := (ideal_impl K).
Notation tm c := (@mkterm G c [S k]).

Lemma keqb_ne (x y : K) : x <> y -> keqb K x y = false.
Proof. intros N. destruct (keqb K x y) eqn:E; [apply keqb_iff in E; contradiction|reflexivity]. Qed.
Lemma sub_self : mdeg_checked_sub [S k] [S k] = Some [].
Proof. unfold mdeg_checked_sub. cbn [mdeg_is_zero zip_longest checked_sub_loop]. rewrite Nat.compare_refl. reflexivity. Qed.
Lemma add_nil : mdeg_add m [S k] [] = Ok [S k].
Proof. reflexivity. Qed.
Lemma ideal_add_term (q : poly G) a : exists q', poly_add_term q a = Ok q'.
Proof.
  unfold poly_add_term. destruct (poly_is_zero q); [eauto|]. destruct (term_is_zero a); [eauto|].
  destruct (position _ q) as [i|] eqn:Ep; [|eauto].
  apply position_Some in Ep as (l1 & x & l2 & -> & <- & _ & _). unfold vget.
  rewrite nth_error_app2, Nat.sub_diag by lia. cbn [nth_error bind fadd ideal_impl].
  cbv zeta. destruct (term_is_zero _); eauto.
Qed.
Lemma ideal_two (c d b : K) : d <> k0 -> b <> k0 -> ksub c d <> k0 ->
  forall fuel (q rem : poly G), exists q', divide_loop m O (S fuel) [tm c; tm d] [[tm b]] [q] rem =
     divide_loop m O fuel [tm (ksub c d); tm d] [[tm b]] [q'] rem.
Proof.
  intros Nd Nb Nc fuel q rem. destruct (ideal_add_term q (@mkterm G (kdiv d b) [])) as [q' Eq]. exists q'.
  assert (L : leading_term O [tm c; tm d] = Ok (Some (tm d))).
  { unfold leading_term, max_by, term_cmp. cbn [foldM tdeg]. rewrite EO. reflexivity. }
  assert (Nq : kdiv d b <> k0) by (apply k_div_nonzero; assumption).
  assert (Eb : kmul b (kdiv d b) = d) by (field; exact Nb).
  cbn [divide_loop]. rewrite L. cbn [bind try_divisors]. cbn [leading_term max_by foldM bind].
  unfold term_try_div. unfold term_is_zero at 1 2. cbn [coef tdeg feqb f0 fdiv ideal_impl]. rewrite !keqb_ne by assumption.
  cbn [bind]. rewrite sub_self. cbn [bind]. rewrite Eq. cbn [bind].
  unfold term_mul_poly, poly_mul_term. unfold term_is_zero at 1. cbn [coef feqb f0 ideal_impl]. rewrite keqb_ne by assumption.
  cbn [orb poly_is_zero mapM]. unfold term_mul. unfold term_is_zero at 1 2. cbn [coef tdeg feqb f0 fmul ideal_impl].
  rewrite !keqb_ne by assumption. cbn [orb bind]. rewrite add_nil. cbn [bind]. rewrite Eb.
  unfold poly_sub, poly_neg, poly_add. cbn [mapM]. unfold term_neg. cbn [coef tdeg fneg ideal_impl bind foldM].
  unfold poly_add_term. cbn [poly_is_zero]. unfold term_is_zero at 1. cbn [coef feqb f0 ideal_impl].
  rewrite keqb_ne by (intros X; apply Nd; transitivity (kopp (kopp d)); [ring|rewrite X; ring]).
  cbn [position tdeg]. rewrite (proj2 (mdeg_eqb_eq [S k] [S k]) eq_refl). cbn [vget nth_error bind coef fadd ideal_impl tdeg].
  cbv zeta. unfold term_is_zero. cbn [coef feqb f0 ideal_impl].
  replace (kadd c (kopp d)) with (ksub c d) by ring. rewrite keqb_ne by assumption. cbn [list_set bind]. reflexivity.
Qed.
Lemma times_pred (c d : K) : (forall n, c <> times n d) -> forall n, ksub c d <> times n d.
Proof. intros N n X. apply (N (S n)). cbn [times]. rewrite <- X. ring. Qed.

Theorem C99_repeated_degree_diverges : forall c d b : K, d <> k0 -> b <> k0 -> (forall n, c <> times n d) ->
  forall fuel, divide m O fuel [tm c; tm d] [[tm b]] = NoFuel.
Proof.
  intros c d b Nd Nb N fuel. unfold divide. cbn [length repeat]. generalize (@poly_zero G) at 1 as q. revert c N.
  induction fuel as [|n IH]; intros c N q.
  - cbn [divide_loop]. unfold leading_term, max_by, term_cmp. cbn [foldM tdeg]. rewrite EO. reflexivity.
  - destruct (ideal_two c d b Nd Nb (times_pred c d N 0) n q poly_zero) as [q' E].
    rewrite E. apply IH. apply times_pred. exact N.
Qed.
End IdealRepeated.

(** ** Rational: Polynomial::new(vec![x, -x]), of value zero, divided by x *)
Local Notation qt n d l := (@mkterm (rat_impl Debug) (mkrat n%Z d%Z) l).
Definition x_minus_x : poly (rat_impl Debug) := poly_new [qt 1 1 [1]; qt (-1) 1 [1]].

Lemma times_neg n : exists z, times (K := QcField) n (rat_den (mkrat (-1) 1)) = Q2Qc (QArith_base.Qmake z 1) /\ (z <= 0)%Z.
Proof.
  induction n as [|n (z & E & L)].
  - exists 0%Z. split; [reflexivity|lia].
  - exists (z - 1)%Z. split; [|lia]. cbn [times]. rewrite E. unfold rat_den. cbn [kadd QcField].
    rewrite Q2Qc_plus. apply Q2Qc_eq_iff. unfold rat_val, QArith_base.Qeq, QArith_base.Qplus. cbn. lia.
Qed.

Theorem C99_is_zero_refuted : poly_is_zero x_minus_x = false /\ peq (ip rat_spec x_minus_x) pzero.
Proof.
  split; [reflexivity|]. change (ip rat_spec x_minus_x) with
    (padd (@pterm QcField (rat_den (mkrat 1 1)) (canon [1])) (@pterm QcField (rat_den (mkrat (-1) 1)) (canon [1]))).
  rewrite <- pterm_add.
  assert (E : @kadd QcField (rat_den (mkrat 1 1)) (rat_den (mkrat (-1) 1)) = k0) by (apply Qcanon.Qc_is_canon; reflexivity).
  rewrite E. apply pterm_zero.
Qed.

(** it is divided by x for ever: no result with any amount of fuel, in every order *)
Theorem C99_zero_value_refuted : forall O (OS : OrderSpec O) fuel r qs,
  divide Debug O fuel x_minus_x [[qt 1 1 [1]]] <> Ok (r, qs).
Proof.
  intros O OS fuel r qs.
  assert (W : forall n, (n = 1 \/ n = -1)%Z -> twf rat_spec (qt n 1 [1])).
  { intros n Hn. split; [split; cbn; lia|]. split; [|split; [discriminate|constructor; [cbn; lia|constructor]]].
    cbn. unfold rat_den. intros X. apply (f_equal Qcanon.this) in X. destruct Hn as [-> | ->]; discriminate. }
  apply (C99_repeated_degree_no_result rat_spec OS (qt 1 1 [1]) (qt (-1) 1 [1]) (qt 1 1 [1]) fuel); auto.
  - intros i. apply le_n.
  - intros n E. destruct (times_neg n) as (z & Ez & Lz).
    assert (X : rat_den (mkrat 1 1) = Q2Qc (QArith_base.Qmake z 1)) by (rewrite <- Ez; exact E).
    unfold rat_den in X. apply Q2Qc_eq_iff in X. unfold rat_val, QArith_base.Qeq in X. cbn in X. lia.
Qed.

(** ** Non-trivial instances *)
(** 3x + x has a first coefficient that is a multiple of the second, and x - x is cleaned by adding it to zero *)
Example C99_ex_multiple : divide Debug lex_cmp 10 [qt 3 1 [1]; qt 1 1 [1]] [[qt 1 1 [1]]] = Ok ([], [[qt 4 1 []]]).
Proof. reflexivity. Qed.
Example C99_ex_cleaned : poly_add poly_zero x_minus_x = Ok [] /\ poly_add x_minus_x poly_zero = Ok x_minus_x.
Proof. split; reflexivity. Qed.
(** a zero leading term: 0x + 1 divided by 0 and y, with overflow checks and without, and what the operations give *)
Example C99_ex_zero_term m fuel : divide m (grevlex_cmp m) fuel [@mkterm (rat_impl m) (mkrat 0 1) [1]; @mkterm (rat_impl m) (mkrat 1 1) []]
   [[]; [@mkterm (rat_impl m) (mkrat 1 1) [0; 1]]] = NoFuel.
Proof.
  apply (@C99_zero_leading_term_diverges (rat_impl m) eq_refl m (grevlex_cmp m) _ (@mkterm (rat_impl m) (mkrat 0 1) [1]) [[]]
    [@mkterm (rat_impl m) (mkrat 1 1) [0; 1]] [] (@mkterm (rat_impl m) (mkrat 1 1) [0; 1])); try reflexivity.
  repeat constructor.
Qed.
Example C99_ex_values : poly_add x_minus_x x_minus_x = Ok [qt 1 1 [1]; qt (-1) 1 [1]] /\
  poly_eval x_minus_x [mkrat 7 1] = Ok (mkrat 0 1) /\ poly_mul Debug x_minus_x x_minus_x = Ok [].
Proof. repeat split; reflexivity. Qed.
Example C99_ex_ideal m fuel : divide m (grlex_cmp m) fuel [@mkterm (ideal_impl QcField) (Q2Qc 1) [1]; @mkterm (ideal_impl QcField) (Qcanon.Qcopp (Q2Qc 1)) [1]]
  [[@mkterm (ideal_impl QcField) (Q2Qc 1) [1]]] = NoFuel.
Proof.
  apply (C99_repeated_degree_diverges QcField m (grlex_cmp m) 0 eq_refl); [intros X; apply (f_equal Qcanon.this) in X; discriminate..|].
  intros n E. destruct (times_neg n) as (z & Ez & Lz).
  assert (X : Q2Qc 1 = Q2Qc (QArith_base.Qmake z 1)) by (rewrite <- Ez; exact E).
  apply Q2Qc_eq_iff in X. unfold QArith_base.Qeq in X. cbn in X. lia.
Qed.

(** degrees with trailing zeros: x written (1,0), times (1,0), plus x: two entries of one monomial, of the right value *)
Example C99_ex_raw : raw rat_spec [qt 2 1 [1; 0]; qt 3 1 [1]] /\
  poly_add [qt 2 1 [1; 0]] [qt 3 1 [1]] = Ok [qt 2 1 [1; 0]; qt 3 1 [1]] /\
  poly_mul Debug [qt 2 1 [1; 0]] [qt 3 1 [1; 0]] = Ok [qt 6 1 [2]] /\
  poly_eval [qt 2 1 [1; 0]; qt 3 1 [1]] [mkrat 2 1; mkrat 5 1] = Ok (mkrat 10 1) /\
  divide Debug lex_cmp 10 [qt 2 1 [0; 1; 0]; qt 3 1 [1]] [[qt 1 1 [1]; qt 1 1 [0; 0]]] = Ok ([qt 2 1 [0; 1; 0]; qt (-3) 1 []], [[qt 3 1 []]]).
Proof.
  split; [|repeat split; reflexivity]. repeat (constructor; [split; [split; cbn; lia|repeat constructor; cbn; lia]|]). constructor.
Qed.

Print Assumptions C99_values.
Print Assumptions C99_cleaning.
Print Assumptions C99_division_identity.
Print Assumptions C99_repeated_degree_no_result.
Print Assumptions C99_zero_leading_term_diverges.
Print Assumptions C99_repeated_degree_diverges.
Print Assumptions C99_is_zero_refuted.
Print Assumptions C99_zero_value_refuted.
