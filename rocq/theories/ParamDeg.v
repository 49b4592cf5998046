(** * Two runs of the same code on polynomials whose exponent vectors correspond.

    As in [Param], with equal coefficients and a relation [D] between the exponent vectors: every function of the model that treats exponent vectors
    only through the operations listed in [DegSim] respects it. *)
From Verif Require Import Base BaseLemmas FieldIface MDegModel OrdModel PolyModel CompModel Param.

Record DegSim (D : mdeg -> mdeg -> Prop) (O O' : ord_impl) : Prop := {
  d_zero : D mdeg_zero mdeg_zero;
  d_eqb : forall a b a' b', D a a' -> D b b' -> mdeg_eqb a b = mdeg_eqb a' b';
  d_succ : forall a b a' b', D a a' -> D b b' -> mdeg_is_succ a b = mdeg_is_succ a' b';
  d_sub : forall a b a' b', D a a' -> D b b' -> orel D (mdeg_checked_sub a b) (mdeg_checked_sub a' b');
  d_add : forall a b a' b', D a a' -> D b b' -> rsim D (mdeg_add Debug a b) (mdeg_add Debug a' b');
  d_lcm : forall a b a' b', D a a' -> D b b' -> D (mdeg_lcm a b) (mdeg_lcm a' b');
  d_ord : forall a b a' b', D a a' -> D b b' -> rsim eq (O a b) (O' a' b')
}.
Arguments d_zero {_ _ _}. Arguments d_eqb {_ _ _}. Arguments d_succ {_ _ _}. Arguments d_sub {_ _ _}. Arguments d_add {_ _ _}. Arguments d_lcm {_ _ _}. Arguments d_ord {_ _ _}.

Section ParamDeg.
Context {F : FieldImpl} {D : mdeg -> mdeg -> Prop} {O O' : ord_impl} (X : DegSim D O O').

Definition trel (t t' : term F) : Prop := coef t = coef t' /\ D (tdeg t) (tdeg t').
Notation prel := (Forall2 trel).

Lemma coef_op (r : res F) : rsim eq r r. Proof. apply rsim_refl. Qed.
Lemma term_is_zero_rel t t' : trel t t' -> term_is_zero t = term_is_zero t'.
Proof. intros [H _]. unfold term_is_zero. rewrite H. reflexivity. Qed.
Lemma term_zero_rel : trel term_zero term_zero.
Proof. split; [reflexivity|apply (d_zero X)]. Qed.
Lemma term_new_rel c d d' : D d d' -> trel (term_new c d) (term_new c d').
Proof. intros H. unfold term_new. destruct (feqb c f0); [apply term_zero_rel|]. split; [reflexivity|exact H]. Qed.
Lemma poly_is_zero_rel p p' : prel p p' -> poly_is_zero p = poly_is_zero p'.
Proof. destruct 1; reflexivity. Qed.
Lemma poly_new_rel l l' : prel l l' -> prel (poly_new l) (poly_new l').
Proof. apply filter_rel. intros a a' H. rewrite (term_is_zero_rel _ _ H). reflexivity. Qed.
Lemma poly_from_term_rel t t' : trel t t' -> prel (poly_from_term t) (poly_from_term t').
Proof. intros H. unfold poly_from_term. rewrite (term_is_zero_rel _ _ H). destruct (term_is_zero t'); repeat constructor; apply H. Qed.
Lemma term_divides_rel s t s' t' : trel s s' -> trel t t' -> term_divides s t = term_divides s' t'.
Proof. intros H [_ E]. unfold term_divides. rewrite (term_is_zero_rel _ _ H), (d_succ X _ _ _ _ (proj2 H) E). reflexivity. Qed.
Lemma term_try_div_rsim s t s' t' : trel s s' -> trel t t' -> rsim (orel trel) (term_try_div s t) (term_try_div s' t').
Proof.
  intros H G. unfold term_try_div. rewrite (term_is_zero_rel _ _ H), (term_is_zero_rel _ _ G).
  destruct (term_is_zero s'); [apply term_zero_rel|]. destruct (term_is_zero t'); [exact I|].
  destruct H as [Hc Hd], G as [Gc Gd]. rewrite Hc, Gc. eapply rsim_bind; [apply coef_op|]. intros c c' _ <-.
  pose proof (d_sub X _ _ _ _ Hd Gd) as E. destruct (mdeg_checked_sub (tdeg s) (tdeg t)), (mdeg_checked_sub (tdeg s') (tdeg t')); cbn in E; try contradiction; [|exact I].
  split; [reflexivity|exact E].
Qed.
Lemma term_add_rsim s t s' t' : trel s s' -> trel t t' -> rsim prel (term_add s t) (term_add s' t').
Proof.
  intros H G. unfold term_add. rewrite (term_is_zero_rel _ _ H), (term_is_zero_rel _ _ G).
  destruct (term_is_zero s'); [apply poly_from_term_rel; exact G|].
  destruct (term_is_zero t'); [apply poly_from_term_rel; exact H|].
  pose proof H as [Hc Hd]. pose proof G as [Gc Gd]. rewrite Hc, Gc, (d_eqb X _ _ _ _ Hd Gd). destruct (mdeg_eqb (tdeg s') (tdeg t')).
  - eapply rsim_bind; [apply coef_op|]. intros c c' _ <-. apply poly_from_term_rel, term_new_rel. exact Hd.
  - apply rsim_Ok. constructor; [exact H|]. constructor; [exact G|constructor].
Qed.
Lemma poly_add_term_rsim p p' t t' : prel p p' -> trel t t' -> rsim prel (poly_add_term p t) (poly_add_term p' t').
Proof.
  intros H G. unfold poly_add_term. rewrite (poly_is_zero_rel _ _ H), (term_is_zero_rel _ _ G).
  destruct (poly_is_zero p'); [apply poly_from_term_rel; exact G|]. destruct (term_is_zero t'); [exact H|].
  rewrite (position_rel trel _ (fun s => mdeg_eqb (tdeg s) (tdeg t')) p p'); [|intros a a' [_ Ha]; apply (d_eqb X); [exact Ha|apply G]|exact H].
  destruct (position _ p') as [i|].
  - eapply rsim_bind; [apply vget_rsim; exact H|]. intros a a' _ [Ac Ad]. destruct G as [Gc Gd]. rewrite Ac, Gc.
    eapply rsim_bind; [apply coef_op|]. intros c c' _ <-. cbn zeta.
    assert (T : trel (mkterm c (tdeg a)) (mkterm c (tdeg a'))) by (split; [reflexivity|exact Ad]).
    rewrite (term_is_zero_rel _ _ T). destruct (term_is_zero _); apply rsim_Ok; [apply list_remove_rel|apply list_set_rel]; assumption.
  - apply rsim_Ok. apply Forall2_app; auto.
Qed.
Lemma poly_add_rsim p q p' q' : prel p p' -> prel q q' -> rsim prel (poly_add p q) (poly_add p' q').
Proof. intros H G. apply (foldM_rsim trel); [|exact G|exact H]. intros. apply poly_add_term_rsim; assumption. Qed.
Lemma term_neg_rsim t t' : trel t t' -> rsim trel (term_neg t) (term_neg t').
Proof. intros [H G]. unfold term_neg. rewrite H. eapply rsim_bind; [apply coef_op|]. intros c c' _ <-. split; [reflexivity|exact G]. Qed.
Lemma poly_neg_rsim p p' : prel p p' -> rsim prel (poly_neg p) (poly_neg p').
Proof. apply mapM_rsim. exact term_neg_rsim. Qed.
Lemma poly_sub_rsim p q p' q' : prel p p' -> prel q q' -> rsim prel (poly_sub p q) (poly_sub p' q').
Proof. intros H G. unfold poly_sub. eapply rsim_bind; [apply poly_neg_rsim; exact G|]. intros n n' _ Hn. apply poly_add_rsim; assumption. Qed.
Lemma term_mul_rsim s t s' t' : trel s s' -> trel t t' -> rsim trel (term_mul Debug s t) (term_mul Debug s' t').
Proof.
  intros H G. unfold term_mul. rewrite (term_is_zero_rel _ _ H), (term_is_zero_rel _ _ G).
  destruct (term_is_zero s' || term_is_zero t'); [apply term_zero_rel|]. destruct H as [Hc Hd], G as [Gc Gd]. rewrite Hc, Gc.
  eapply rsim_bind; [apply coef_op|]. intros c c' _ <-.
  eapply rsim_bind; [apply (d_add X); eassumption|]. intros d d' _ Hdd. split; [reflexivity|exact Hdd].
Qed.
Lemma poly_mul_term_rsim p t p' t' : prel p p' -> trel t t' -> rsim prel (poly_mul_term Debug p t) (poly_mul_term Debug p' t').
Proof.
  intros H G. unfold poly_mul_term. rewrite (term_is_zero_rel _ _ G), (poly_is_zero_rel _ _ H).
  destruct (term_is_zero t' || poly_is_zero p'); [constructor|]. apply (mapM_rsim trel); [|exact H].
  intros a a' Ha. apply term_mul_rsim; assumption.
Qed.
Lemma poly_scale_rsim p p' c c' : prel p p' -> c = c' -> rsim prel (poly_scale Debug p c) (poly_scale Debug p' c').
Proof. intros H G. apply poly_mul_term_rsim; [exact H|]. split; [exact G|apply (d_zero X)]. Qed.
Lemma poly_mul_rsim p q p' q' : prel p p' -> prel q q' -> rsim prel (poly_mul Debug p q) (poly_mul Debug p' q').
Proof.
  intros H G. unfold poly_mul. eapply rsim_bind; [apply (reduce_iter_rsim prel)|].
  - intros. apply poly_add_rsim; assumption.
  - eapply Forall2_map_l; [|exact H]. intros t t' Ht. apply poly_mul_term_rsim; assumption.
  - intros o o' _ Ho. destruct o, o'; cbn in *; try contradiction; [exact Ho|constructor].
Qed.
Lemma poly_div_scalar_rsim p p' (c c' : F) : prel p p' -> c = c' -> rsim prel (poly_div_scalar Debug p c) (poly_div_scalar Debug p' c').
Proof.
  intros H <-. unfold poly_div_scalar. eapply rsim_bind; [apply coef_op|].
  intros i i' _ Hi. apply poly_scale_rsim; assumption.
Qed.


Lemma plen {l : list (poly F)} {l' : list (poly F)} : Forall2 prel l l' -> @length (poly F) l = @length (poly F) l'.
Proof. apply Forall2_length. Qed.
Lemma term_cmp_rsim s t s' t' : trel s s' -> trel t t' -> rsim eq (term_cmp O s t) (term_cmp O' s' t').
Proof. intros [_ H] [_ G]. unfold term_cmp. apply (d_ord X); assumption. Qed.
Lemma sort_terms_rsim p p' : prel p p' -> rsim prel (sort_terms O p) (sort_terms O' p').
Proof. apply sort_by_rsim. exact term_cmp_rsim. Qed.
Lemma leading_term_rsim p p' : prel p p' -> rsim (orel trel) (leading_term O p) (leading_term O' p').
Proof. apply max_by_rsim. exact term_cmp_rsim. Qed.
Lemma leading_coef_rsim p p' : prel p p' -> rsim (orel eq) (leading_coef O p) (leading_coef O' p').
Proof.
  intros H. unfold leading_coef. eapply rsim_bind; [apply leading_term_rsim; exact H|].
  intros o o' _ Ho. destruct o as [t|], o' as [t'|]; cbn in *; try contradiction; auto. apply Ho.
Qed.
Definition tdrel (x : list (poly F) * term F * poly F) (x' : list (poly F) * term F * poly F) : Prop :=
  Forall2 prel (fst (fst x)) (fst (fst x')) /\ trel (snd (fst x)) (snd (fst x')) /\ prel (snd x) (snd x').
Lemma try_divisors_rsim t t' ds ds' : trel t t' -> Forall2 prel ds ds' -> forall qs qs', Forall2 prel qs qs' ->
  rsim (orel tdrel) (try_divisors O t ds qs) (try_divisors O' t' ds' qs').
Proof.
  intros Ht H. induction H as [|g g' ds ds' Hg _ IH]; intros qs qs' Hq; cbn; [exact I|].
  destruct Hq as [|q q' qs qs' Hq Hqs]; [exact I|].
  assert (SK : rsim (orel tdrel)
     (r <- try_divisors O t ds qs ;; Ok (match r with None => None | Some (qs0, a, g') => Some (q :: qs0, a, g') end))
     (r <- try_divisors O' t' ds' qs' ;; Ok (match r with None => None | Some (qs0, a, g') => Some (q' :: qs0, a, g') end))).
  { eapply rsim_bind; [apply IH; exact Hqs|]. intros r r' _ Hr.
    destruct r as [[[a b] c]|], r' as [[[a' b'] c']|]; cbn in *; try contradiction; [|exact I].
    destruct Hr as [H1 [H2 H3]]. cbn in *. repeat split; cbn; try assumption; try constructor; try assumption; apply H2. }
  eapply rsim_bind; [apply leading_term_rsim; exact Hg|]. intros o o' _ Ho.
  destruct o as [l|], o' as [l'|]; cbn in Ho; try contradiction; [|exact SK].
  eapply rsim_bind; [apply term_try_div_rsim; [exact Ht|exact Ho]|]. intros d d' _ Hd.
  destruct d as [a|], d' as [a'|]; cbn in Hd; try contradiction; [|exact SK].
  eapply rsim_bind; [apply poly_add_term_rsim; [exact Hq|exact Hd]|]. intros p p' _ Hp.
  apply rsim_Ok. cbn. repeat split; cbn; try assumption; try constructor; try assumption; apply Hd.
Qed.
Lemma vec_pop_rel {A A' : Type} (Q : A -> A' -> Prop) l l' : Forall2 Q l l' ->
  Forall2 Q (fst (vec_pop l)) (fst (vec_pop l')) /\ orel Q (snd (vec_pop l)) (snd (vec_pop l')).
Proof.
  intros H. apply rev_rel in H. unfold vec_pop. destruct H as [|x x' r r' Hx H]; cbn; [split; auto|].
  split; [apply rev_rel; exact H|exact Hx].
Qed.
Definition drel (x : poly F * list (poly F)) (x' : poly F * list (poly F)) : Prop :=
  prel (fst x) (fst x') /\ Forall2 prel (snd x) (snd x').
Lemma divide_loop_rsim n : forall f f' ds ds' qs qs' rem rem', prel f f' -> Forall2 prel ds ds' -> Forall2 prel qs qs' -> prel rem rem' ->
  rsim drel (divide_loop Debug O n f ds qs rem) (divide_loop Debug O' n f' ds' qs' rem').
Proof.
  induction n as [|n IH]; intros f f' ds ds' qs qs' rem rem' Hf Hd Hq Hr; cbn.
  - eapply rsim_bind; [apply leading_term_rsim; exact Hf|]. intros o o' _ Ho.
    destruct o, o'; cbn in Ho; try contradiction; [reflexivity|]. split; assumption.
  - eapply rsim_bind; [apply leading_term_rsim; exact Hf|]. intros o o' _ Ho.
    destruct o as [t|], o' as [t'|]; cbn in Ho; try contradiction; [|split; assumption].
    eapply rsim_bind; [apply try_divisors_rsim; eassumption|]. intros r r' _ Hrr.
    destruct r as [[[a b] c]|], r' as [[[a' b'] c']|]; cbn in Hrr; try contradiction.
    + destruct Hrr as [H1 [H2 H3]]. cbn in *.
      eapply rsim_bind; [apply poly_mul_term_rsim; [exact H3|exact H2]|]. intros ag ag' _ Hag.
      eapply rsim_bind; [apply poly_sub_rsim; eassumption|]. intros g g' _ Hg. apply IH; assumption.
    + eapply rsim_bind; [apply sort_by_rsim; [exact term_cmp_rsim|exact Hf]|]. intros fs fs' _ Hfs.
      apply vec_pop_rel in Hfs. destruct (vec_pop fs) as [g [l|]], (vec_pop fs') as [g' [l'|]]; cbn in Hfs; destruct Hfs as [Hg Hl]; try contradiction.
      * eapply rsim_bind; [apply poly_add_term_rsim; eassumption|]. intros s s' _ Hs. apply IH; assumption.
      * apply IH; assumption.
Qed.
Lemma divide_rsim n f f' ds ds' : prel f f' -> Forall2 prel ds ds' -> rsim drel (divide Debug O n f ds) (divide Debug O' n f' ds').
Proof.
  intros H G. unfold divide. rewrite (plen G). apply divide_loop_rsim; try assumption; [|constructor]. apply repeat_rel. constructor.
Qed.
Lemma monic_lcm_rel s t s' t' : trel s s' -> trel t t' -> trel (monic_lcm s t) (monic_lcm s' t').
Proof.
  intros H G. unfold monic_lcm. rewrite (term_is_zero_rel _ _ H), (term_is_zero_rel _ _ G).
  destruct (term_is_zero s' || term_is_zero t'); [apply term_zero_rel|]. destruct H as [_ H], G as [_ G].
  split; [reflexivity|]. apply (d_lcm X); assumption.
Qed.
Lemma try_reduce_rsim f g f' g' : prel f f' -> prel g g' -> rsim (orel prel) (try_reduce Debug O f g) (try_reduce Debug O' f' g').
Proof.
  intros H G. unfold try_reduce.
  eapply rsim_bind; [apply leading_term_rsim; exact H|]. intros o o' _ Ho. destruct o as [a|], o' as [a'|]; cbn in Ho; try contradiction; [|exact I].
  eapply rsim_bind; [apply leading_term_rsim; exact G|]. intros o o' _ Ho2. destruct o as [b|], o' as [b'|]; cbn in Ho2; try contradiction; [|exact I].
  pose proof (monic_lcm_rel _ _ _ _ Ho Ho2) as L. cbn zeta.
  eapply rsim_bind; [apply term_try_div_rsim; [exact L|exact Ho]|]. intros o o' _ H1. destruct o as [c|], o' as [c'|]; cbn in H1; try contradiction; [|exact I].
  eapply rsim_bind; [apply poly_mul_term_rsim; [exact H|exact H1]|]. intros af af' _ Haf.
  eapply rsim_bind; [apply term_try_div_rsim; [exact L|exact Ho2]|]. intros o o' _ H2. destruct o as [d|], o' as [d'|]; cbn in H2; try contradiction; [|exact I].
  eapply rsim_bind; [apply poly_mul_term_rsim; [exact G|exact H2]|]. intros bg bg' _ Hbg.
  eapply rsim_bind; [apply poly_sub_rsim; eassumption|]. intros s s' _ Hs. exact Hs.
Qed.
Lemma criterion_loop_rsim n gs gs' ps : Forall2 prel gs gs' -> rsim eq (criterion_loop Debug O n gs ps) (criterion_loop Debug O' n gs' ps).
Proof.
  intros H. induction ps as [|[i j] ps IH]; cbn; [reflexivity|].
  eapply rsim_bind; [apply vget_rsim; exact H|]. intros a a' _ Ha. eapply rsim_bind; [apply vget_rsim; exact H|]. intros b b' _ Hb.
  eapply rsim_bind; [apply try_reduce_rsim; eassumption|]. intros o o' _ Ho. destruct o as [s|], o' as [s'|]; cbn in Ho; try contradiction; [|reflexivity].
  eapply rsim_bind; [apply divide_rsim; eassumption|]. intros [r q] [r' q'] _ [Hr _]. cbn in Hr.
  rewrite (poly_is_zero_rel _ _ Hr). destruct (poly_is_zero r'); [exact IH|reflexivity].
Qed.
Lemma criterion_rsim n gs gs' : Forall2 prel gs gs' -> rsim eq (buchberger_criterion Debug O n gs) (buchberger_criterion Debug O' n gs').
Proof. intros H. unfold buchberger_criterion. rewrite (plen H). apply criterion_loop_rsim. exact H. Qed.
Lemma extend_inner_rsim n gs gs' i js : Forall2 prel gs gs' -> rsim (orel prel) (extend_inner Debug O n gs i js) (extend_inner Debug O' n gs' i js).
Proof.
  intros H. induction js as [|j js IH]; cbn; [exact I|].
  eapply rsim_bind; [apply vget_rsim; exact H|]. intros a a' _ Ha. eapply rsim_bind; [apply vget_rsim; exact H|]. intros b b' _ Hb.
  eapply rsim_bind; [apply try_reduce_rsim; eassumption|]. intros o o' _ Ho.
  eapply rsim_bind; [apply unwrap_rsim; exact Ho|]. intros s s' _ Hs.
  eapply rsim_bind; [apply divide_rsim; eassumption|]. intros [r q] [r' q'] ED [Hr _]. cbn in Hr.
  eapply rsim_bind; [apply leading_coef_rsim; exact Hr|]. intros c c' EC Hc. destruct c as [c|], c' as [c'|]; cbn in Hc; try contradiction; [|exact IH].
  eapply rsim_bind; [apply poly_div_scalar_rsim; [exact Hr|exact Hc]|]. intros p p' _ Hp. exact Hp.
Qed.
Lemma extend_loop_rsim d n : forall gs gs' i, Forall2 prel gs gs' -> rsim (Forall2 prel) (extend_loop Debug O d n gs i) (extend_loop Debug O' d n gs' i).
Proof.
  induction n as [|n IH]; intros gs gs' i H; cbn [extend_loop]; rewrite (plen H); (destruct (i <? _); [|exact H]); [reflexivity|].
  eapply rsim_bind; [apply extend_inner_rsim; exact H|]. intros o o' _ Ho. destruct o as [r|], o' as [r'|]; cbn in Ho; try contradiction; apply IH.
  - apply Forall2_app; auto.
  - exact H.
Qed.
Lemma minimize_find_rsim gs gs' ps : Forall2 prel gs gs' -> rsim eq (minimize_find O gs ps) (minimize_find O' gs' ps).
Proof.
  intros H. induction ps as [|[i j] ps IH]; cbn; [reflexivity|].
  eapply rsim_bind; [apply vget_rsim; exact H|]. intros a a' _ Ha.
  eapply rsim_bind; [apply leading_term_rsim; exact Ha|]. intros l l' _ Hl. eapply rsim_bind; [apply unwrap_rsim; exact Hl|]. intros t t' _ Ht.
  eapply rsim_bind; [apply vget_rsim; exact H|]. intros b b' _ Hb.
  eapply rsim_bind; [apply leading_term_rsim; exact Hb|]. intros k k' _ Hk. eapply rsim_bind; [apply unwrap_rsim; exact Hk|]. intros u u' _ Hu.
  rewrite (term_divides_rel _ _ _ _ Ht Hu). destruct (term_divides t' u'); [reflexivity|exact IH].
Qed.
Lemma minimize_loop_rsim n : forall gs gs', Forall2 prel gs gs' -> rsim (Forall2 prel) (minimize_loop O n gs) (minimize_loop O' n gs').
Proof.
  induction n as [|n IH]; intros gs gs' H; cbn; [reflexivity|]. rewrite (plen H).
  eapply rsim_bind; [apply minimize_find_rsim; exact H|]. intros o o' _ <-. destruct o as [i|]; [|exact H]. apply IH, list_remove_rel, H.
Qed.
Lemma any_term_divisible_rsim g g' ts ts' : prel g g' -> prel ts ts' -> rsim eq (any_term_divisible O g ts) (any_term_divisible O' g' ts').
Proof.
  intros H G. induction G as [|t t' ts ts' Ht _ IH]; cbn; [reflexivity|].
  eapply rsim_bind; [apply leading_term_rsim; exact H|]. intros l l' _ Hl. eapply rsim_bind; [apply unwrap_rsim; exact Hl|]. intros u u' _ Hu.
  rewrite (term_divides_rel _ _ _ _ Hu Ht). destruct (term_divides u' t'); [reflexivity|exact IH].
Qed.
Lemma reduce_find_rsim gs gs' ps : Forall2 prel gs gs' -> rsim eq (reduce_find O gs ps) (reduce_find O' gs' ps).
Proof.
  intros H. induction ps as [|[i j] ps IH]; cbn; [reflexivity|].
  eapply rsim_bind; [apply vget_rsim; exact H|]. intros a a' _ Ha.
  eapply (rsim_bind prel). { destruct Ha; [constructor|]. apply vget_rsim. exact H. }
  intros b b' _ Hb. eapply rsim_bind; [apply any_term_divisible_rsim; eassumption|]. intros c c' _ <-. destruct c; [reflexivity|exact IH].
Qed.
Lemma reduce_loop_rsim d n : forall gs gs', Forall2 prel gs gs' -> rsim (Forall2 prel) (reduce_loop Debug O d n gs) (reduce_loop Debug O' d n gs').
Proof.
  induction n as [|n IH]; intros gs gs' H; cbn; [reflexivity|]. rewrite (plen H).
  eapply rsim_bind; [apply reduce_find_rsim; exact H|]. intros o o' _ <-. destruct o as [i|]; [|exact H].
  eapply rsim_bind; [apply vget_rsim; exact H|]. intros g g' _ Hg. cbn zeta.
  eapply rsim_bind; [apply divide_rsim; [exact Hg|apply list_remove_rel; exact H]|]. intros [r q] [r' q'] _ [Hr _]. cbn in Hr.
  apply IH. apply Forall2_app; [apply list_remove_rel; exact H|auto].
Qed.
Lemma buchberger_rsim n gs gs' : Forall2 prel gs gs' -> rsim (Forall2 prel) (buchberger_algorithm Debug O n gs) (buchberger_algorithm Debug O' n gs').
Proof.
  intros H. unfold buchberger_algorithm. eapply rsim_bind; [apply extend_loop_rsim; exact H|]. intros g g' _ Hg.
  eapply rsim_bind; [apply minimize_loop_rsim; exact Hg|]. intros h h' _ Hh. apply reduce_loop_rsim. exact Hh.
Qed.
End ParamDeg.
