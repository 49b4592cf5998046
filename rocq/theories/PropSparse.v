(** * Property C110: division by and Groebner bases of polynomials with at most two terms. *)
From Verif Require Import Base BaseLemmas IntModel RatModel FieldIface RatProofs MDegModel OrdModel PolyModel CompModel
  MonoSpec MDegProofs OrdProofs PolySpec PolyProofs GroebnerSpec DivProofs DivSpec GbProofs CompMono PropPoly PropDiv PropGb IdealSpec PropIdeal SubstSpec StdSpec PropIdealOps PropShape PropGraded.
From Coq Require Import Lia Ring Field Setoid Morphisms Permutation.

Local Open Scope nat_scope.

Section PropSparse.
Context {F : FieldImpl} {K : MathField} (FS : FieldSpec F K).
Add Field Kf35 : (kth K).
Add Ring Pr35 : (@poly_ring K) (setoid (@peq_equiv K) (@poly_ring_ext K)).
Notation poly := (poly F).
Notation val := (ip FS).
Notation clean := (pwf FS).
Notation nonzero := (fun g : poly => g <> []).
Notation mon t := (canon (tdeg t)).
Notation mons p := (map (fun t => mon t) p).

(** the number of terms of a clean polynomial is the number of monomials that occur in it *)
Lemma mons_nodup (p : poly) : clean p -> NoDup (mons p).
Proof.
  intros [W N]. induction p as [|t p IH]; [constructor|]. cbn [map] in *. apply Forall_cons_iff in W as [Wt W]. inversion N as [|x l A B]; subst.
  constructor; [|apply IH; assumption]. intros I. apply in_map_iff in I as (s & E & I). apply A. apply in_map_iff. exists s. split; [|exact I].
  rewrite Forall_forall in W. destruct (W s I) as (_ & _ & Cs & _). destruct Wt as (_ & _ & Ct & _).
  apply canonical_ext; [exact Cs|exact Ct|]. intros i. rewrite <- !canon_exp, E. reflexivity.
Qed.
Lemma count_le (p : poly) (L : list mono) : clean p -> (forall m, coeff (val p) m <> k0 -> In m L) -> length p <= length L.
Proof.
  intros W H. rewrite <- (map_length (fun t => mon t) p). apply NoDup_incl_length; [apply mons_nodup; exact W|].
  intros m I. apply H. apply in_map_iff in I as (t & <- & I). apply (pwf_support FS p _ W). eauto.
Qed.
Lemma in_mons (p : poly) m : clean p -> coeff (val p) m <> k0 -> In m (mons p).
Proof. intros W N. apply (pwf_support FS p m W) in N as (t & I & <-). apply in_map_iff. eauto. Qed.

Section Order.
Context {O : ord_impl} (OS : OrderSpec O).
Notation lt := (olt OS).
Notation LM := (is_lm lt).
Let laws := olaws _ OS.
Notation tail p l := (remove mono_dec l (mons p)).

Lemma tail_length (p : poly) l : clean p -> coeff (val p) l <> k0 -> length (tail p l) + 1 <= length p.
Proof.
  intros W N. pose proof (remove_length_lt mono_dec (mons p) l (in_mons p l W N)) as X. rewrite map_length in X. lia.
Qed.
(** subtracting the multiple a g of g that cancels the leading monomial of f *)
Lemma step_length (f g f' : poly) l lf c a : clean f -> clean g -> clean f' -> LM (val g) l -> LM (val f) lf -> lf = mmul a l ->
  coeff (val f') lf = k0 -> peq (val f') (psub (val f) (tmul c a (val g))) -> length f' + 2 <= length f + length g.
Proof.
  intros Wf Wg Wf' Lg Lf -> Z E.
  assert (X : length f' <= length (tail f (mmul a l) ++ map (mmul a) (tail g l))).
  { apply count_le; [exact Wf'|]. intros m N.
    assert (Nm : m <> mmul a l) by (intros ->; contradiction).
    rewrite E, coeff_sub in N. apply in_or_app. destruct (kdec (coeff (val f) m) k0) as [Zf|Nf].
    - right. destruct (kdec (coeff (tmul c a (val g)) m) k0) as [Zt|Nt]; [exfalso; apply N; rewrite Zf, Zt; ring|].
      apply coeff_tmul_inv in Nt as (_ & b & -> & Nb). apply in_map. apply in_in_remove; [congruence|apply in_mons; assumption].
    - left. apply in_in_remove; [exact Nm|apply in_mons; assumption]. }
  rewrite app_length, map_length in X. pose proof (tail_length f (mmul a l) Wf (proj1 Lf)). pose proof (tail_length g l Wg (proj1 Lg)). lia.
Qed.

Lemma divide_loop_length (divs : list poly) : Forall clean divs -> Forall (fun g => length g <= 2) divs ->
  forall n (f : poly) quots rem r qs, clean f -> clean rem -> Forall clean quots -> length quots = length divs ->
  divide_loop Debug O n f divs quots rem = Ok (r, qs) -> length r <= length f + length rem.
Proof.
  intros Wd Ld. induction n as [|n IH]; intros f quots rem r qs Wf Wr Wq Lq E; cbn [divide_loop] in E.
  { apply bind_Ok in E as ([t|] & _ & E); [discriminate E|]. injection E as <- _. lia. }
  pose proof (leading_term_ok FS OS f Wf) as HL. apply bind_Ok in E as (o & Eo & E). rewrite Eo in HL. cbn [safe] in HL.
  destruct o as [t|]; [|injection E as <- _; lia]. destruct HL as (It & Wt & Lt & Ct).
  pose proof (try_divisors_ok FS OS t Wt divs quots Wd Wq Lq) as HD. apply bind_Ok in E as (o & Ed & E). rewrite Ed in HD. cbn [safe] in HD.
  destruct o as [[[quots' a] g]|].
  - destruct HD as (i & q & q' & l & Hg & Hq & -> & Wq' & _ & Wa & Lg & Em & Ea & _).
    assert (Ig : In g divs) by (eapply nth_error_In; exact Hg). rewrite Forall_forall in Wd, Ld. pose proof (Wd g Ig) as Wg.
    pose proof (term_mul_poly_ok FS a g Wa Wg) as HM. apply bind_Ok in E as (ag & Eag & E). rewrite Eag in HM. cbn [safe] in HM. destruct HM as [Wag Xag].
    pose proof (poly_sub_ok FS f ag Wf (Forall_twf0 FS _ (proj1 Wag))) as HS. apply bind_Ok in E as (f' & Ef & E). rewrite Ef in HS. cbn [safe] in HS. destruct HS as [Wf' Xf].
    apply IH in E; [|exact Wf'|exact Wr|apply Forall_list_set; assumption|rewrite list_set_length; exact Lq].
    assert (X : length f' + 2 <= length f + length g).
    { apply (step_length f g f' l (mon t) (den FS (coef a)) (mon a)); auto; [|rewrite Xf, Xag; reflexivity].
      rewrite Xf, Xag, coeff_sub, Em, coeff_tmul, <- Em, Ct, Ea. field. apply Lg. }
    specialize (Ld g Ig). lia.
  - pose proof (sort_ok FS OS f (Forall_twf0 FS _ (proj1 Wf))) as HS. apply bind_Ok in E as (fs & Es & E). rewrite Es in HS. cbn [safe] in HS. destruct HS as (P & _ & _).
    pose proof (vec_pop_spec fs) as V. destruct (vec_pop fs) as [f' [l|]].
    + subst fs. assert (Wp : clean (f' ++ [l])) by (apply (pwf_perm FS f); assumption).
      assert (Wl : twf FS l) by (apply (pwf_in FS (f' ++ [l])); [exact Wp|apply in_or_app; right; left; reflexivity]).
      assert (Wf' : clean f').
      { destruct Wp as [A N]. apply Forall_app in A as [A _]. split; [exact A|]. rewrite map_app in N. cbn [map] in N. apply NoDup_remove_1 in N. rewrite app_nil_r in N. exact N. }
      pose proof (poly_add_term_ok FS rem l Wr (twf_twf0 FS l Wl)) as HA. apply bind_Ok in E as (rem' & Er & E). rewrite Er in HA. cbn [safe] in HA. destruct HA as [Wr' Xr].
      apply IH in E; auto. apply Permutation_length in P. rewrite app_length in P. cbn [length] in P.
      assert (X : length rem' <= length (mon l :: mons rem)).
      { apply count_le; [exact Wr'|]. intros m N. rewrite Xr, coeff_add in N. destruct (kdec (coeff (val rem) m) k0) as [Z|Nz]; [|right; apply in_mons; assumption].
        left. unfold it in N. rewrite coeff_pterm in N. destruct (mono_dec (mon l) m) as [e|ne]; [exact e|exfalso; apply N; rewrite Z; ring]. }
      cbn [length] in X. rewrite map_length in X. lia.
    + destruct V as [-> ->]. apply Permutation_sym in P. apply Permutation_nil in P. subst f. destruct It.
Qed.

(** ** C110 *)
(** divisors with at most two terms each: the remainder has no more terms than the dividend *)
Theorem C110_division : forall fuel (f : poly) divs r qs, clean f -> Forall clean divs -> Forall (fun g => length g <= 2) divs ->
  divide Debug O fuel f divs = Ok (r, qs) -> length r <= length f.
Proof.
  intros fuel f divs r qs W Wd L E. unfold divide in E. apply divide_loop_length in E; auto.
  - cbn in E. lia.
  - apply pwf_nil.
  - apply Forall_forall. intros x I. apply repeat_spec in I. subst x. apply pwf_nil.
  - apply repeat_length.
Qed.
(** the S-polynomial of f and g has at most |f| + |g| - 2 terms *)
Theorem C110_spoly : forall f g s : poly, clean f -> clean g -> try_reduce Debug O f g = Ok (Some s) -> length s + 2 <= length f + length g.
Proof.
  intros f g s Wf Wg E. destruct (C37_s_polynomial FS OS f g s Wf Wg E) as (Ws & l & l' & Lf & Lg & X & _ & B). cbv zeta in *.
  set (M := mlcm l l') in *.
  assert (Q : length s <= length (map (mmul (mquo M l)) (tail f l) ++ map (mmul (mquo M l')) (tail g l'))).
  { apply count_le; [exact Ws|]. intros m N.
    assert (Nm : m <> M).
    { apply (pwf_support FS s m Ws) in N as (t & It & <-). intros Y. pose proof (B t It) as Z. rewrite Y in Z. exact (lt_irrefl lt laws _ Z). }
    rewrite X, coeff_sub in N. apply in_or_app. destruct (kdec (coeff (tmul (kinv (coeff (val f) l)) (mquo M l) (val f)) m) k0) as [Z|Nz].
    - right. destruct (kdec (coeff (tmul (kinv (coeff (val g) l')) (mquo M l') (val g)) m) k0) as [Z'|Nz]; [exfalso; apply N; rewrite Z, Z'; ring|].
      apply coeff_tmul_inv in Nz as (_ & b & -> & Nb). apply in_map. apply in_in_remove; [|apply in_mons; assumption].
      intros ->. apply Nm. rewrite mmul_comm. apply mmul_quo. apply mdiv_lcm_r.
    - left. apply coeff_tmul_inv in Nz as (_ & b & -> & Nb). apply in_map. apply in_in_remove; [|apply in_mons; assumption].
      intros ->. apply Nm. rewrite mmul_comm. apply mmul_quo. apply mdiv_lcm_l. }
  rewrite app_length, !map_length in Q. pose proof (tail_length f l Wf (proj1 Lf)). pose proof (tail_length g l' Wg (proj1 Lg)). lia.
Qed.
End Order.

(** ** an invariant of the three Groebner functions: whatever S-polynomials, remainders and quotients by scalars keep *)
Section Invariant.
Context (m : mode) (O : ord_impl) (P : poly -> Prop).
Context (P_spoly : forall f g s, P f -> P g -> try_reduce m O f g = Ok (Some s) -> P s).
Context (P_rem : forall n f gs r qs, P f -> Forall P gs -> divide m O n f gs = Ok (r, qs) -> P r).
Context (P_scal : forall r c r', P r -> leading_coef O r = Ok (Some c) -> poly_div_scalar m r c = Ok r' -> P r').
Lemma Forall_nth (gs : list poly) i g : Forall P gs -> vget gs i = Ok g -> P g.
Proof. intros H E. apply vget_Ok in E. rewrite Forall_forall in H. apply H. eapply nth_error_In. exact E. Qed.
Lemma Forall_remove (gs : list poly) i : Forall P gs -> Forall P (list_remove gs i).
Proof. intros H. revert i. induction H as [|x l Hx Hl IH]; intros [|i]; cbn; auto. Qed.
Lemma extend_inner_inv n gens i js r : Forall P gens -> extend_inner m O n gens i js = Ok (Some r) -> P r.
Proof.
  intros H. induction js as [|j js IH]; cbn [extend_inner]; intros E; [discriminate E|].
  apply bind_Ok in E as (gi & Ei & E). apply bind_Ok in E as (gj & Ej & E). apply bind_Ok in E as (o & Er & E).
  apply bind_Ok in E as (h & Eo & E). destruct o as [h'|]; [|discriminate Eo]. injection Eo as ->.
  apply bind_Ok in E as ([r0 qs] & Ed & E). apply bind_Ok in E as ([c|] & El & E); [|auto].
  apply bind_Ok in E as (r' & Es & E). injection E as <-. eapply P_scal; [|exact El|exact Es]. eapply P_rem; [|exact H|exact Ed].
  eapply P_spoly; [| |exact Er]; eapply Forall_nth; eassumption.
Qed.
Lemma extend_loop_inv d n : forall gens i G, Forall P gens -> extend_loop m O d n gens i = Ok G -> Forall P G.
Proof.
  induction n as [|n IH]; intros gens i G H; cbn [extend_loop]; destruct (i <? length gens); intros E.
  - discriminate E.
  - injection E as <-. exact H.
  - apply bind_Ok in E as ([r|] & Eo & E).
    + apply IH in E; [exact E|]. apply Forall_app. split; [exact H|]. constructor; [|constructor]. eapply extend_inner_inv; eassumption.
    + apply IH in E; assumption.
  - injection E as <-. exact H.
Qed.
Lemma minimize_loop_inv n : forall gens G, Forall P gens -> minimize_loop O n gens = Ok G -> Forall P G.
Proof.
  induction n as [|n IH]; intros gens G H; cbn [minimize_loop]; [discriminate|]. intros E. apply bind_Ok in E as ([i|] & Eo & E).
  - apply IH in E; [exact E|]. apply Forall_remove. exact H.
  - injection E as <-. exact H.
Qed.
Lemma reduce_loop_inv d n : forall gens G, Forall P gens -> reduce_loop m O d n gens = Ok G -> Forall P G.
Proof.
  induction n as [|n IH]; intros gens G H; cbn [reduce_loop]; [discriminate|]. intros E. apply bind_Ok in E as ([i|] & Eo & E).
  - apply bind_Ok in E as (g & Eg & E). apply bind_Ok in E as ([r qs] & Ed & E). apply IH in E; [exact E|].
    apply Forall_app. split; [apply Forall_remove; exact H|]. constructor; [|constructor].
    eapply P_rem; [|apply Forall_remove; exact H|exact Ed]. eapply Forall_nth; eassumption.
  - injection E as <-. exact H.
Qed.
Lemma algorithm_inv n gens G : Forall P gens -> buchberger_algorithm m O n gens = Ok G -> Forall P G.
Proof.
  intros H E. unfold buchberger_algorithm in E. apply bind_Ok in E as (g1 & E1 & E). apply bind_Ok in E as (g2 & E2 & E).
  eapply reduce_loop_inv; [|exact E]. eapply minimize_loop_inv; [|exact E2]. eapply extend_loop_inv; [|exact E1]. exact H.
Qed.
End Invariant.

Section Order2.
Context {O : ord_impl} (OS : OrderSpec O).
Notation lt := (olt OS).
Notation LM := (is_lm lt).
Let laws := olaws _ OS.
Notation small := (fun g : poly => length g <= 2).
Notation ok2 := (fun g : poly => clean g /\ length g <= 2).

Lemma scal_ok r c r' : clean r -> leading_coef O r = Ok (Some c) -> poly_div_scalar Debug r c = Ok r' -> clean r' /\ length r' = length r.
Proof.
  intros W El E. unfold leading_coef in El. apply bind_Ok in El as (o & Et & El). destruct o as [t|]; [|discriminate El]. injection El as <-.
  pose proof (leading_term_ok FS OS r W) as H. rewrite Et in H. cbn [safe] in H. destruct H as (_ & Wt & _ & _).
  pose proof (poly_div_scalar_ok FS r (coef t) (Forall_twf0 FS _ (proj1 W)) (proj1 Wt) (proj1 (proj2 Wt))) as H. rewrite E in H. cbn [safe] in H. destruct H as (_ & W' & X). specialize (W' W).
  split; [exact W'|].
  assert (Z : forall m, coeff (val r') m <> k0 <-> coeff (val r) m <> k0).
  { intros m. rewrite X, coeff_scale. split; intros N Z; apply N; [rewrite Z; ring|].
    assert (D : kmul (den FS (coef t)) (kmul (kinv (den FS (coef t))) (coeff (val r) m)) = coeff (val r) m) by (field; apply Wt).
    rewrite <- D, Z. ring. }
  apply Nat.le_antisymm.
  - rewrite <- (map_length (fun t => mon t) r). apply count_le; [exact W'|]. intros m N. apply in_mons; [exact W|apply Z; exact N].
  - rewrite <- (map_length (fun t => mon t) r'). apply count_le; [exact W|]. intros m N. apply in_mons; [exact W'|apply Z; exact N].
Qed.
(** generators with at most two terms each: so have the elements of all three functions' results *)
Theorem C110_two_terms : forall fuel (gens out : list poly), Forall clean gens -> Forall small gens ->
  (buchberger_extend Debug O fuel gens = Ok out \/ buchberger_reduce Debug O fuel gens = Ok out \/ buchberger_algorithm Debug O fuel gens = Ok out) ->
  Forall small out.
Proof.
  intros fuel gens out W S E.
  assert (H : Forall ok2 gens) by (rewrite Forall_forall in *; auto).
  assert (A : forall f g s, ok2 f -> ok2 g -> try_reduce Debug O f g = Ok (Some s) -> ok2 s).
  { intros f g s [Wf Lf] [Wg Lg] Es. split; [exact (proj1 (C37_s_polynomial FS OS f g s Wf Wg Es))|]. pose proof (C110_spoly OS f g s Wf Wg Es). lia. }
  assert (B : forall n f gs r qs, ok2 f -> Forall ok2 gs -> divide Debug O n f gs = Ok (r, qs) -> ok2 r).
  { intros n f gs r qs [Wf Lf] Hg Ed. assert (Wg : Forall clean gs) by (revert Hg; apply Forall_impl; tauto).
    assert (Lg : Forall small gs) by (revert Hg; apply Forall_impl; tauto).
    split; [exact (proj1 (divide_run FS OS n f gs r qs Wf Wg Ed))|]. pose proof (C110_division OS n f gs r qs Wf Wg Lg Ed). lia. }
  assert (C : forall r c r', ok2 r -> leading_coef O r = Ok (Some c) -> poly_div_scalar Debug r c = Ok r' -> ok2 r').
  { intros r c r' [Wr Lr] El Es. destruct (scal_ok r c r' Wr El Es) as [X Y]. split; [exact X|lia]. }
  assert (Q : Forall ok2 out).
  { destruct E as [E|[E|E]].
    - exact (extend_loop_inv Debug O ok2 A B C fuel fuel gens 0 out H E).
    - exact (reduce_loop_inv Debug O ok2 B fuel fuel gens out H E).
    - exact (algorithm_inv Debug O ok2 A B C fuel gens out H E). }
  revert Q. apply Forall_impl. tauto.
Qed.
(** ** one term each *)
Notation single := (fun g : poly => length g = 1).
Lemma single_is (g : poly) : length g = 1 -> exists t, g = [t].
Proof. destruct g as [|t [|u g]]; intros H; try discriminate H. eauto. Qed.
Lemma leading_single t : leading_term O ([t] : poly) = Ok (Some t).
Proof. reflexivity. Qed.
Lemma extend_inner_single n (gens : list poly) i js r : Forall clean gens -> Forall single gens -> extend_inner Debug O n gens i js = Ok r -> r = None.
Proof.
  intros W S. induction js as [|j js IH]; cbn [extend_inner]; intros E; [injection E as <-; reflexivity|].
  apply bind_Ok in E as (gi & Ei & E). apply bind_Ok in E as (gj & Ej & E). apply bind_Ok in E as (o & Er & E).
  apply bind_Ok in E as (h & Eo & E). destruct o as [h'|]; [|discriminate Eo]. injection Eo as ->.
  pose proof (C110_spoly OS gi gj h (Forall_nth clean gens i gi W Ei) (Forall_nth clean gens j gj W Ej) Er) as L.
  pose proof (Forall_nth single gens i gi S Ei) as Li. pose proof (Forall_nth single gens j gj S Ej) as Lj. cbv beta in Li, Lj.
  destruct h as [|x h]; [|cbn [length] in L; lia].
  assert (D : divide Debug O n [] gens = Ok ([], repeat poly_zero (length gens))) by (destruct n; reflexivity). rewrite D in E. cbn [bind] in E.
  apply IH. exact E.
Qed.
Lemma extend_loop_single d n : forall (gens : list poly) i G, Forall clean gens -> Forall single gens -> extend_loop Debug O d n gens i = Ok G -> G = gens.
Proof.
  induction n as [|n IH]; intros gens i G W S; cbn [extend_loop]; destruct (i <? length gens); intros E; try discriminate E; try (injection E as <-; reflexivity).
  apply bind_Ok in E as (o & Eo & E). rewrite (extend_inner_single d gens i (seq 0 i) o W S Eo) in E. exact (IH _ _ _ W S E).
Qed.
Lemma reduce_find_single (gens : list poly) ps : Forall single gens ->
  (forall i j, In (i, j) ps -> exists gi gj ti tj, nth_error gens i = Some gi /\ nth_error gens j = Some gj /\ leading_term O gi = Ok (Some ti) /\
     leading_term O gj = Ok (Some tj) /\ term_divides tj ti = false) -> reduce_find O gens ps = Ok None.
Proof.
  intros S. induction ps as [|[i j] ps IH]; intros H; [reflexivity|]. cbn [reduce_find].
  destruct (H i j (or_introl eq_refl)) as (gi & gj & ti & tj & Ei & Ej & Li & Lj & D). unfold vget. rewrite Ei. cbn [bind].
  rewrite Forall_forall in S. destruct (single_is gi (S gi (nth_error_In _ _ Ei))) as (t & ->). rewrite leading_single in Li. injection Li as <-.
  rewrite Ej. cbn [bind any_term_divisible]. rewrite Lj. cbn [bind unwrap]. rewrite D. cbn [bind]. apply IH. intros i' j' I. apply H. right. exact I.
Qed.
Lemma sublist_in {A : Type} (l l' : list A) x : sublist l l' -> In x l -> In x l'.
Proof. induction 1 as [|y l l' S IH|y l l' S IH]; intros I; [exact I| |right; auto]. destruct I as [->|I]; [left; reflexivity|right; auto]. Qed.
(** generators with one term each: the result consists of generators, in their order; every generator is divisible by one of them, and none by another *)
Theorem C110_monomials : forall fuel (gens out : list poly), Forall clean gens -> Forall single gens ->
  buchberger_algorithm Debug O fuel gens = Ok out ->
  sublist out gens /\
  (forall t, In [t] gens -> exists s, In [s] out /\ mdiv (mon s) (mon t)) /\
  (forall i j t s, i <> j -> nth_error out i = Some [t] -> nth_error out j = Some [s] -> ~ mdiv (mon s) (mon t)).
Proof.
  intros fuel gens out W S E. pose proof E as E0. unfold buchberger_algorithm in E. apply bind_Ok in E as (g1 & E1 & E). apply bind_Ok in E as (g2 & E2 & E).
  pose proof (extend_loop_single _ _ _ _ _ W S E1) as ->.
  destruct (C82_minimize _ _ _ _ E2) as [Sub M].
  assert (S2 : Forall single g2) by (apply Forall_forall; intros x I; rewrite Forall_forall in S; apply S; eapply sublist_in; eassumption).
  assert (Eq : out = g2).
  { unfold buchberger_reduce in E. destruct fuel as [|n]; [discriminate E|]. cbn [reduce_loop] in E.
    rewrite (reduce_find_single g2 (pairs_iter (length g2)) S2) in E; [injection E as <-; reflexivity|].
    intros i j I. apply pairs_iter_in in I as (Hi & Hj & N). exact (M i j Hi Hj N). }
  subst g2. split; [exact Sub|].
  assert (NZ : Forall nonzero gens) by (apply Forall_forall; intros x I ->; rewrite Forall_forall in S; discriminate (S [] I)).
  assert (Wo : Forall clean out) by (apply (algorithm_run FS OS fuel gens out W NZ E0)).
  rewrite Forall_forall in W, Wo, S2.
  assert (L1 : forall t, clean [t] -> LM (val [t]) (mon t)).
  { intros t Wt. apply (proj1 (C31_clean FS OS [t] Wt) t (leading_single t)). }
  split.
  - intros t I. destruct (C40_groebner_basis FS OS fuel gens out (proj2 (Forall_forall _ _) W) NZ E0 (val [t]) (mon t)) as (g & l & Ig & Lg & D).
    + apply in_ideal_gen. apply in_map. exact I.
    + apply L1. auto.
    + destruct (single_is g (S2 g Ig)) as (s & ->). exists s. split; [exact Ig|]. rewrite (is_lm_unique lt laws _ _ _ Lg (L1 s (Wo _ Ig))) in D. exact D.
  - intros i j t s N Ei Ej D.
    destruct (M i j) as (gi & gj & ti & tj & Gi & Gj & Li & Lj & Dv); [apply nth_error_Some; rewrite Ei; discriminate|apply nth_error_Some; rewrite Ej; discriminate|exact N|].
    rewrite Ei in Gi. injection Gi as <-. rewrite Ej in Gj. injection Gj as <-. rewrite leading_single in Li, Lj. injection Li as <-. injection Lj as <-.
    assert (Wt : twf FS t) by (apply (pwf_in FS [t]); [apply Wo; eapply nth_error_In; exact Ei|left; reflexivity]).
    assert (Ws : twf FS s) by (apply (pwf_in FS [s]); [apply Wo; eapply nth_error_In; exact Ej|left; reflexivity]).
    assert (X : term_divides s t = true) by (apply (term_divides_ok FS s t); [apply twf_twf0; assumption..|split; [apply Ws|exact D]]).
    congruence.
Qed.
End Order2.
End PropSparse.

(** ** Concrete cases *)
Notation RR := (rat_impl Debug).
(** x^4 + 2 z^4 + 3 by x^2 - y: three terms *)
Example C110_ex_division : pwf rat_spec ([ex_t 1 1 [4]; ex_t 2 1 [0; 0; 4]; ex_t 3 1 []] : poly RR) /\
  divide Debug lex_cmp 30 ([ex_t 1 1 [4]; ex_t 2 1 [0; 0; 4]; ex_t 3 1 []] : poly RR) [ex_ga] =
  Ok ([ex_t 1 1 [0; 2]; ex_t 2 1 [0; 0; 4]; ex_t 3 1 []], [[ex_t 1 1 [2]; ex_t 1 1 [0; 1]]]).
Proof. split; [apply ex_clean; reflexivity|reflexivity]. Qed.
(** with three terms in the divisor the remainder can grow: x by x - y - z *)
Example C110_ex_three : divide Debug lex_cmp 30 ([ex_t 1 1 [1]] : poly RR) [[ex_t 1 1 [1]; ex_t (-1) 1 [0; 1]; ex_t (-1) 1 [0; 0; 1]]] =
  Ok ([ex_t 1 1 [0; 1]; ex_t 1 1 [0; 0; 1]], [[ex_t 1 1 []]]).
Proof. reflexivity. Qed.
(** x^2 - y, x^3 - z: the run of C109_ex, four elements with two terms *)
Example C110_ex_two : Forall (fun g => length g <= 2) [ex_ga; ex_gb] /\ Forall (fun g : poly RR => length g = 2) ex_gout.
Proof. split; repeat (constructor; [cbn; lia|]); constructor. Qed.
(** 2 x^2, x y, x^3 y, 3 y^3: the third is dropped *)
Example C110_ex_monomials : let gens : list (poly RR) := [[ex_t 2 1 [2]]; [ex_t 1 1 [1; 1]]; [ex_t 1 1 [3; 1]]; [ex_t 3 1 [0; 3]]] in
  Forall (pwf rat_spec) gens /\ Forall (fun g => length g = 1) gens /\
  buchberger_algorithm Debug lex_cmp 30 gens = Ok [[ex_t 2 1 [2]]; [ex_t 1 1 [1; 1]]; [ex_t 3 1 [0; 3]]].
Proof.
  split; [repeat (constructor; [apply ex_clean; reflexivity|]); constructor|]. split; [repeat constructor|reflexivity].
Qed.

Print Assumptions C110_division.
Print Assumptions C110_spoly.
Print Assumptions C110_two_terms.
Print Assumptions C110_monomials.
