(** * C130: polynomials whose leading terms are coprime

    Two monomials are coprime when no variable occurs in both.  Polynomials with pairwise coprime leading terms form a Groebner basis (Buchberger's
    first criterion): buchberger_criterion accepts them, buchberger_extend adds nothing, buchberger_algorithm keeps their number and leading
    monomials, and the dimension of the ideal is the number of variables minus the number of polynomials. *)
From Coq Require Import ZArith.
From Verif Require Import Base BaseLemmas IntModel RatModel FieldIface RatProofs MDegModel OrdModel PolyModel CompModel
  MonoSpec MDegProofs OrdProofs LinSpec PolySpec PolyProofs GroebnerSpec DivProofs DivSpec GbProofs CompMono PropPoly PropDiv PropGb IdealSpec PropIdeal SubstSpec StdSpec PropIdealOps PropStd HilbertSpec DimSpec PropHilbert PropDim.
From Coq Require Import Ring Field Setoid Morphisms Permutation.
Import ListNotations.
Local Open Scope nat_scope.

(** ** the mathematics *)
Section First.
Context {K : MathField} (lt : mono -> mono -> Prop) (L : mono_order_laws lt).
Add Field Kf57 : (kth K).
Add Ring Pr57 : (@poly_ring K) (setoid (@peq_equiv K) (@poly_ring_ext K)).
Notation LM := (is_lm lt).
Lemma coprime_lcm l l' : (forall i, mexp l i = 0 \/ mexp l' i = 0) -> mlcm l l' = MonoSpec.mmul l l'.
Proof. intros H. mext. destruct (H i); lia. Qed.
Lemma coprime_rep (G : list (spoly K)) n g l h l' : In g G -> In h G -> LM g l -> LM h l' -> svars n g -> svars n h ->
  (forall i, mexp l i = 0 \/ mexp l' i = 0) -> rep lt G n (fun m => lt m (mlcm l l')) (spol g l h l').
Proof.
  intros Ig Ih Lg Lh Vg Vh C. pose proof (coprime_lcm l l' C) as E.
  assert (Q1 : mquo (mlcm l l') l = l') by (rewrite E; mext; lia). assert (Q2 : mquo (mlcm l l') l' = l) by (rewrite E; mext; lia).
  set (cg := coeff g l). set (ch := coeff h l'). assert (Ng : cg <> k0) by apply Lg. assert (Nh : ch <> k0) by apply Lh.
  set (g' := psub g (pterm cg l)). set (h' := psub h (pterm ch l')).
  set (D := pterm (kinv (kmul cg ch)) mone : spoly K).
  assert (PA : peq (pmul D (pterm ch l')) (pterm (kinv cg) l')).
  { unfold D. rewrite <- tmul_pmul. unfold tmul, pterm. cbn [map fst snd]. rewrite mmul_1_l. replace (kmul (kinv (kmul cg ch)) ch) with (kinv cg) by (field; split; assumption). reflexivity. }
  assert (PB : peq (pmul D (pterm cg l)) (pterm (kinv ch) l)).
  { unfold D. rewrite <- tmul_pmul. unfold tmul, pterm. cbn [map fst snd]. rewrite mmul_1_l. replace (kmul (kinv (kmul cg ch)) cg) with (kinv ch) by (field; split; assumption). reflexivity. }
  assert (X : peq (spol g l h l') (psub (pmul (pmul D g') h) (pmul (pmul D h') g))).
  { unfold spol. rewrite Q1, Q2. fold cg ch. rewrite !tmul_pmul, <- PA, <- PB. unfold g', h'. ring. }
  assert (B : forall p a x, LM p a -> svars n p -> coeff (pmul D (psub p (pterm (coeff p a) a))) x <> k0 -> mvars n x /\ lt x a).
  { intros p a x La V Nx. unfold D in Nx. rewrite <- tmul_pmul in Nx. apply coeff_tmul_inv in Nx as (_ & y & -> & Nx). rewrite mmul_1_l.
    rewrite coeff_sub, coeff_pterm in Nx. destruct (mono_dec a y) as [<-|N]; [exfalso; apply Nx; ring|].
    assert (Ny : coeff p y <> k0) by (intros Z; apply Nx; rewrite Z; ring). split; [apply V; exact Ny|].
    destruct (proj2 La y Ny) as [E'|H]; [congruence|exact H]. }
  rewrite X. apply rep_add; [|apply rep_opp].
  - apply (rep_pmul lt G n _ _ h l' Ih Lh). intros a Na. destruct (B g l a Lg Vg Na) as [V Ha]. split; [exact V|].
    rewrite E, (mmul_comm a), (mmul_comm l). apply (lt_mul lt L). exact Ha.
  - apply (rep_pmul lt G n _ _ g l Ig Lg). intros a Na. destruct (B h l' a Lh Vh Na) as [V Ha]. split; [exact V|].
    rewrite E, (mmul_comm a). apply (lt_mul lt L). exact Ha.
Qed.
End First.

Lemma Forall2_len {A B} (R : A -> B -> Prop) l l' : Forall2 R l l' -> length l = length l'.
Proof. induction 1; cbn; congruence. Qed.

Section Coprime.
Context {F : FieldImpl} {K : MathField} (FS : FieldSpec F K) {O : ord_impl} (OS : OrderSpec O).
Add Ring Pr58 : (@poly_ring K) (setoid (@peq_equiv K) (@poly_ring_ext K)).
Notation term := (term F).
Notation poly := (poly F).
Notation val := (ip FS).
Notation clean := (pwf FS).
Notation nonzero := (fun g : poly => g <> []).
Notation vars n := (fun g : poly => forall t, In t g -> length (tdeg t) <= n).
Notation mon t := (canon (tdeg t)).
Notation LM := (is_lm (olt OS)).
Notation independent U gens := (independent_vars U (map val gens)).
Let laws := olaws _ OS.

(** no variable occurs in both *)
Definition coprime (s t : term) : Prop := forall i, nth i (tdeg s) 0 = 0 \/ nth i (tdeg t) 0 = 0.
Definition pairwise_coprime (ts : list term) : Prop := forall i j s t, i <> j -> nth_error ts i = Some s -> nth_error ts j = Some t -> coprime s t.
Definition nonconstant (t : term) : Prop := exists i, nth i (tdeg t) 0 <> 0.

Lemma leads_lm gens ts : Forall clean gens -> leads O gens ts -> Forall2 (fun g t => LM (val g) (mon t)) gens ts.
Proof.
  intros W H. induction H as [|g t gens ts E _ IH]; [constructor|]. inversion W; subst. constructor; [|apply IH; assumption].
  apply (proj1 (C31_clean FS OS g ltac:(assumption)) _ E).
Qed.
Lemma leads_nonzero gens ts : leads O gens ts -> Forall nonzero gens.
Proof. induction 1 as [|g t gens ts E _ IH]; constructor; [|exact IH]. intros ->. discriminate E. Qed.
Lemma coprime_groebner gens ts : Forall clean gens -> leads O gens ts -> pairwise_coprime ts -> groebner (olt OS) (map val gens).
Proof.
  intros W Ld C. pose proof (leads_lm gens ts W Ld) as H. destruct (svars_all (map val gens)) as (n & V).
  apply (all_pairs_groebner OS _ n V). intros i j Hi Hj gi gj l l' Ei Ej Li Lj. rewrite nth_error_map in Ei, Ej.
  destruct (nth_error gens i) as [g|] eqn:Gi; [|discriminate]. destruct (nth_error gens j) as [h|] eqn:Gj; [|discriminate]. injection Ei as <-. injection Ej as <-.
  destruct (GbProofs.Forall2_nth _ _ _ _ _ H Gi) as (s & Si & Ls). destruct (GbProofs.Forall2_nth _ _ _ _ _ H Gj) as (t & Tj & Lt).
  rewrite (is_lm_unique _ laws _ _ _ Li Ls), (is_lm_unique _ laws _ _ _ Lj Lt).
  assert (Ig : In (val g) (map val gens)) by (apply in_map; eapply nth_error_In; exact Gi).
  assert (Ih : In (val h) (map val gens)) by (apply in_map; eapply nth_error_In; exact Gj).
  apply (coprime_rep _ laws); auto. intros k. rewrite !canon_exp. apply (C i j s t ltac:(lia) Si Tj).
Qed.

(** ** C130 *)
Theorem C130_groebner : forall gens ts, Forall clean gens -> leads O gens ts -> pairwise_coprime ts ->
  (forall f m, in_ideal (map val gens) f -> LM f m -> exists t, In t ts /\ forall i, nth i (tdeg t) 0 <= mexp m i) /\
  evs (fun fuel => buchberger_criterion Debug O fuel gens) (fun b => b = true).
Proof.
  intros gens ts W Ld C. pose proof (coprime_groebner gens ts W Ld C) as GB. split.
  - intros f m I Lm. destruct (GB f m I Lm) as (g & l & Ig & Lg & D). apply in_map_iff in Ig as (g0 & <- & Ig). apply In_nth_error in Ig as (i & Gi).
    destruct (GbProofs.Forall2_nth _ _ _ _ _ (leads_lm gens ts W Ld) Gi) as (t & Ti & Lt). exists t. split; [eapply nth_error_In; exact Ti|].
    intros k. rewrite (is_lm_unique _ laws _ _ _ Lg Lt) in D. specialize (D k). rewrite canon_exp in D. exact D.
  - eapply evs_mono; [apply (criterion_ok FS OS gens W (leads_nonzero _ _ Ld))|]. intros b H. apply H. exact GB.
Qed.
(** the S-polynomial of one pair *)
Theorem C130_pair : forall fuel g h s t p r qs, clean g -> clean h -> leading_term O g = Ok (Some s) -> leading_term O h = Ok (Some t) -> coprime s t ->
  try_reduce Debug O g h = Ok (Some p) -> divide Debug O fuel p [g; h] = Ok (r, qs) -> r = [].
Proof.
  intros fuel g h s t p r qs Wg Wh Eg Eh C Ep Er.
  assert (W : Forall clean [g; h]) by (constructor; [exact Wg|constructor; [exact Wh|constructor]]).
  assert (GB : groebner (olt OS) (map val [g; h])).
  { apply (coprime_groebner _ [s; t] W); [constructor; [exact Eg|constructor; [exact Eh|constructor]]|]. intros [|[|i]] [|[|j]] s' t' N E1 E2; try congruence; try (destruct i; discriminate); try (destruct j; discriminate); injection E1 as <-; injection E2 as <-; [exact C|].
    intros k. destruct (C k); auto. }
  pose proof (try_reduce_ok FS OS g h Wg Wh) as S. rewrite Ep in S. destruct S as (Wp & l & l' & Ll & Ll' & Es).
  destruct (divide_run FS OS fuel p [g; h] r qs Wp W Er) as (Wr & _ & D). apply (pwf_zero_iff FS r Wr). apply (reduced_ideal_zero _ laws (map val [g; h])); [exact GB| |apply D].
  assert (E : peq (val r) (psub (val p) (psub (val p) (val r)))) by ring. rewrite E. apply in_ideal_sub; [|eapply div_ok_ideal; exact D].
  rewrite Es. apply spol_ideal; cbn; auto.
Qed.
(** a Groebner basis is not extended *)
Lemma inner_none d gens i js o : Forall clean gens -> Forall nonzero gens -> groebner (olt OS) (map val gens) -> i < length gens -> (forall j, In j js -> j < i) ->
  extend_inner Debug O d gens i js = Ok o -> o = None.
Proof.
  intros W NZ GB Hi Hj E. destruct (svars_all (map val gens)) as (n & V).
  assert (H : evs (fun d => extend_inner Debug O d gens i js) (fun o => o = None)).
  { apply evo_evs. eapply evo_mono; [apply (extend_inner_ok FS OS (fun k => k = Overflow) gens n i W V eq_refl)|]; auto.
    - intros I. rewrite Forall_forall in NZ. exfalso. exact (NZ [] I eq_refl).
    - intros [r|]; [|reflexivity]. intros ((Wr & I & R & _ & l & Ll & _) & _). exfalso. apply (LM_nonnil FS OS r l Ll). apply (pwf_zero_iff FS r Wr). exact (reduced_ideal_zero _ laws _ _ GB I R). }
  exact (evs_run _ _ (fun a b L => extend_inner_mono Debug O a b gens i js L) H d o E).
Qed.
Lemma loop_none d : forall n gens i out, Forall clean gens -> Forall nonzero gens -> groebner (olt OS) (map val gens) -> extend_loop Debug O d n gens i = Ok out -> out = gens.
Proof.
  induction n as [|n IH]; intros gens i out W NZ GB E; cbn [extend_loop] in E; destruct (Nat.ltb_spec i (length gens)) as [Hi|Hi]; try congruence; try discriminate.
  destruct (extend_inner Debug O d gens i (seq 0 i)) as [o|k|] eqn:Ei; try discriminate. cbn [bind] in E.
  rewrite (inner_none d gens i (seq 0 i) o W NZ GB Hi) in E; [|intros j Ij; apply in_seq in Ij; lia|exact Ei]. eapply IH; eassumption.
Qed.
Theorem C130_extend : forall gens, Forall clean gens -> Forall nonzero gens -> groebner (olt OS) (map val gens) ->
  evs (fun fuel => buchberger_extend Debug O fuel gens) (fun out => out = gens).
Proof.
  intros gens W NZ GB. destruct (extend_ok FS OS (fun k => k = Overflow) gens W eq_refl) as (N & r & E & H).
  - intros I. rewrite Forall_forall in NZ. exfalso. exact (NZ [] I eq_refl).
  - exists N, r. split; [exact E|]. destruct r as [out|k|]; cbn in *; [|subst k; exact I|exact H].
    apply (loop_none N N gens 0 out W NZ GB). apply (E N (le_n N)).
Qed.

Lemma divides_same ts i j s t : pairwise_coprime ts -> Forall nonconstant ts -> nth_error ts i = Some s -> nth_error ts j = Some t -> mdiv (mon s) (mon t) -> i = j.
Proof.
  intros C NC Hs Ht D. destruct (Nat.eq_dec i j) as [E|N]; [exact E|exfalso]. rewrite Forall_forall in NC. destruct (NC s (nth_error_In _ _ Hs)) as (k & Hk).
  specialize (D k). rewrite !canon_exp in D. unfold expo in D. destruct (C i j s t N Hs Ht k); lia.
Qed.
(** the algorithm keeps the number of polynomials and their leading monomials *)
Theorem C130_algorithm : forall fuel gens ts out, Forall clean gens -> leads O gens ts -> pairwise_coprime ts -> Forall nonconstant ts ->
  buchberger_algorithm Debug O fuel gens = Ok out ->
  exists out', Permutation out out' /\ Forall2 (fun g t => LM (val g) (mon t)) out' ts.
Proof.
  intros fuel gens ts out W Ld C NC E. pose proof (coprime_groebner gens ts W Ld C) as GB. pose proof (leads_lm gens ts W Ld) as Lt.
  destruct (algorithm_run FS OS fuel gens out W (leads_nonzero _ _ Ld) E) as (Wo & SI & GBo & IR).
  assert (NZo : Forall nonzero out).
  { rewrite Forall_forall. intros g I ->. apply (proj1 IR (val [])); [apply in_map; exact I|reflexivity]. }
  destruct (lms_exists FS OS out Wo NZo) as (ls & Hls).
  assert (T : forall f m, in_ideal (map val gens) f -> LM f m -> exists i t, nth_error ts i = Some t /\ mdiv (mon t) m).
  { intros f m I Lm. destruct (GB f m I Lm) as (g & l & Ig & Lg & D). apply in_map_iff in Ig as (g0 & <- & Ig). apply In_nth_error in Ig as (i & Gi).
    destruct (GbProofs.Forall2_nth _ _ _ _ _ Lt Gi) as (t & Ti & Li). exists i, t. rewrite (is_lm_unique _ laws _ _ _ Lg Li) in D. auto. }
  assert (S : forall f m, in_ideal (map val gens) f -> LM f m -> exists j h l, nth_error out j = Some h /\ nth_error ls j = Some l /\ LM (val h) l /\ mdiv l m).
  { intros f m I Lm. apply SI in I. destruct (GBo f m I Lm) as (g & l & Ig & Lg & D). apply in_map_iff in Ig as (g0 & <- & Ig). apply In_nth_error in Ig as (j & Gj).
    destruct (GbProofs.Forall2_nth _ _ _ _ _ Hls Gj) as (l' & Lj & Ll'). exists j, g0, l'. rewrite (is_lm_unique _ laws _ _ _ Lg Ll') in D. auto. }
  assert (Ti : forall i t, nth_error ts i = Some t -> exists g, in_ideal (map val gens) (val g) /\ LM (val g) (mon t)).
  { intros i t Hi. destruct (GbProofs.Forall2_nth' _ _ _ _ _ Lt Hi) as (g & Gi & Lg). exists g. split; [|exact Lg]. apply in_ideal_gen. apply in_map. eapply nth_error_In; exact Gi. }
  assert (Hi : forall j h, nth_error out j = Some h -> in_ideal (map val gens) (val h)).
  { intros j h Hj. apply SI. apply in_ideal_gen. apply in_map. eapply nth_error_In; exact Hj. }
  assert (P : Permutation ls (map (fun t => mon t) ts)).
  { apply NoDup_Permutation.
    - apply NoDup_nth_error. intros i j Li Eij. destruct (nth_error ls i) as [a|] eqn:Ei; [|apply nth_error_None in Ei; lia]. symmetry in Eij.
      destruct (GbProofs.Forall2_nth' _ _ _ _ _ Hls Ei) as (g & Gi & La). destruct (GbProofs.Forall2_nth' _ _ _ _ _ Hls Eij) as (h & Gj & Lb).
      destruct (Nat.eq_dec i j) as [|N]; [assumption|exfalso]. destruct IR as [_ R].
      apply (R i j (val g) (val h) a a N); [rewrite nth_error_map, Gi; reflexivity|rewrite nth_error_map, Gj; reflexivity|exact Lb|apply La|apply mdiv_refl].
    - apply NoDup_nth_error. rewrite map_length. intros i j Li Eij. rewrite !nth_error_map in Eij.
      destruct (nth_error ts i) as [s|] eqn:Ei; [|apply nth_error_None in Ei; lia]. destruct (nth_error ts j) as [t|] eqn:Ej; [|discriminate]. cbn [option_map] in Eij. assert (Es : mon s = mon t) by congruence.
      apply (divides_same ts i j s t C NC Ei Ej). rewrite Es. apply mdiv_refl.
    - intros a. split; intros Ia.
      + apply In_nth_error in Ia as (j & Ej). destruct (GbProofs.Forall2_nth' _ _ _ _ _ Hls Ej) as (h & Hj & La).
        destruct (T _ _ (Hi j h Hj) La) as (i & t & Et & D). destruct (Ti i t Et) as (g & Ig & Lg). destruct (S _ _ Ig Lg) as (j' & h' & l & Hj' & _ & Ll & D').
        assert (X : val h' = val h).
        { eapply (inter_reduced_lm (olt OS) (map val out) _ _ l a IR); [apply in_map; eapply nth_error_In; exact Hj'|apply in_map; eapply nth_error_In; exact Hj|exact Ll|exact La|].
          intros k. etransitivity; [apply D'|apply D]. }
        rewrite X in Ll. rewrite (is_lm_unique _ laws _ _ _ Ll La) in D'. assert (a = mon t) by (apply mono_ext; intros k; specialize (D k); specialize (D' k); lia).
        subst a. apply (in_map (fun t => mon t)). eapply nth_error_In; exact Et.
      + apply in_map_iff in Ia as (t & <- & It). apply In_nth_error in It as (i & Et). destruct (Ti i t Et) as (g & Ig & Lg).
        destruct (S _ _ Ig Lg) as (j & h & l & Hj & Lj & Ll & D). destruct (T _ _ (Hi j h Hj) Ll) as (i' & t' & Et' & D').
        assert (X : i' = i). { apply (divides_same ts i' i t' t C NC Et' Et). intros k. etransitivity; [apply D'|apply D]. }
        subst i'. rewrite Et in Et'. injection Et' as <-. assert (l = mon t) by (apply mono_ext; intros k; specialize (D k); specialize (D' k); lia).
        subst l. eapply nth_error_In; exact Lj. }
  assert (PF : forall l l', Permutation l l' -> forall o, Forall2 (fun g a => LM (val g) a) o l -> exists o', Permutation o o' /\ Forall2 (fun g a => LM (val g) a) o' l').
  { clear. induction 1 as [|x l l' P IH|x y l|l l' l'' P1 IH1 P2 IH2]; intros o H.
    - inversion H; subst. exists []. auto.
    - inversion H as [|g ? o' ? Hg Ho]; subst. destruct (IH o' Ho) as (o'' & Po & Ho''). exists (g :: o''). auto.
    - inversion H as [|g ? o' ? Hg Ho]; subst. inversion Ho as [|g' ? o'' ? Hg' Ho']; subst.
      exists (g' :: g :: o''). split; [apply perm_swap|]. auto.
    - destruct (IH1 o H) as (o' & Po & Ho'). destruct (IH2 o' Ho') as (o'' & Po' & Ho'').
      exists o''. split; [eapply perm_trans; eassumption|exact Ho'']. }
  destruct (PF _ _ P out Hls) as (out' & Po & H'). exists out'. split; [exact Po|]. clear - H'. remember (map (fun t => mon t) ts) as l eqn:El. revert ts El.
  induction H' as [|g a o l Lg _ IH]; intros [|t ts] El; try discriminate; [constructor|]. cbn [map] in El. assert (a = mon t /\ l = map (fun t => mon t) ts) as [-> ->] by (split; congruence). constructor; [exact Lg|apply IH; reflexivity].
Qed.

(** a variable of each leading term *)
Lemma choose_vars U ts : pairwise_coprime ts -> (forall t, In t ts -> exists i, nth i (tdeg t) 0 <> 0 /\ ~ In i U) ->
  exists vs, NoDup vs /\ Forall2 (fun t v => nth v (tdeg t) 0 <> 0 /\ ~ In v U) ts vs.
Proof.
  induction ts as [|t ts IH]; intros C A; [exists []; split; constructor|].
  destruct IH as (vs & ND & H).
  - intros i j s t' N Hs Ht. apply (C (S i) (S j) s t'); [lia|exact Hs|exact Ht].
  - intros t' I. apply A. right. exact I.
  - destruct (A t (or_introl eq_refl)) as (v & Hv & Nv). exists (v :: vs). split; [|constructor; [split; assumption|exact H]]. constructor; [|exact ND].
    intros I. apply In_nth_error in I as (j & Ej). destruct (GbProofs.Forall2_nth' _ _ _ _ _ H Ej) as (t' & Et & Ht' & _).
    destruct (C 0 (S j) t t' ltac:(lia) eq_refl Et v); contradiction.
Qed.
Lemma vars_below n gens ts v : Forall clean gens -> leads O gens ts -> Forall (vars n) gens -> (exists t, In t ts /\ nth v (tdeg t) 0 <> 0) -> v < n.
Proof.
  intros W H V (t & It & Nv). induction H as [|g t' gens ts E _ IH]; [destruct It|]. inversion W; subst. inversion V as [|? ? Vg V']; subst. destruct It as [->|It]; [|apply IH; assumption].
  assert (I : In t g).
  { pose proof (leading_term_ok FS OS g ltac:(assumption)) as S. rewrite E in S. apply S. }
  specialize (Vg t I). destruct (Nat.lt_ge_cases v n) as [|G]; [assumption|]. exfalso. apply Nv. apply nth_overflow. lia.
Qed.
Theorem C130_dimension : forall n gens ts, weightable (olt OS) -> Forall clean gens -> Forall (vars n) gens -> leads O gens ts ->
  pairwise_coprime ts -> Forall nonconstant ts ->
  length gens <= n /\ largest n (fun U => independent U gens) (n - length gens).
Proof.
  intros n gens ts Wt W V Ld C NC. pose proof (coprime_groebner gens ts W Ld C) as GB. pose proof (Forall2_len _ _ _ Ld) as Len.
  assert (Lv : forall U vs, Forall2 (fun t v => nth v (tdeg t) 0 <> 0 /\ ~ In v U) ts vs -> length vs = length gens /\ forall v, In v vs -> v < n /\ ~ In v U).
  { intros U vs H. split; [rewrite Len; symmetry; apply (Forall2_len _ _ _ H)|]. intros v I. apply In_nth_error in I as (j & Ej). destruct (GbProofs.Forall2_nth' _ _ _ _ _ H Ej) as (t & Et & Nv & NU).
    split; [|exact NU]. apply (vars_below n gens ts v W Ld V). exists t. split; [eapply nth_error_In; exact Et|exact Nv]. }
  assert (Up : forall U, NoDup U -> (forall i, In i U -> i < n) -> avoids U ts -> length gens + length U <= n).
  { intros U ND Un A. destruct (choose_vars U ts C A) as (vs & NDv & H). destruct (Lv U vs H) as [L1 L2].
    assert (ND' : NoDup (vs ++ U)).
    { clear - ND NDv L2. induction vs as [|v vs IH]; [exact ND|]. inversion NDv; subst. cbn. constructor; [|apply IH; [assumption|intros x I; apply L2; right; exact I]].
      intros I. apply in_app_iff in I as [I|I]; [contradiction|]. apply (proj2 (L2 v (or_introl eq_refl))). exact I. }
    assert (Ic : incl (vs ++ U) (seq 0 n)).
    { intros i I. apply in_seq. apply in_app_iff in I as [I|I]; [destruct (L2 i I)|specialize (Un i I)]; lia. }
    pose proof (NoDup_incl_length ND' Ic) as X. rewrite app_length, seq_length in X. lia. }
  destruct (choose_vars [] ts C) as (vs & NDv & H).
  { intros t It. rewrite Forall_forall in NC. destruct (NC t It) as (i & Hi). exists i. split; [exact Hi|intros []]. }
  destruct (Lv [] vs H) as [L1 L2]. set (U0 := filter (fun i => negb (existsb (Nat.eqb i) vs)) (seq 0 n)).
  assert (I0 : forall i, In i U0 <-> i < n /\ ~ In i vs).
  { intros i. unfold U0. rewrite filter_In, in_seq, negb_true_iff. split; intros [A B]; (split; [lia|]).
    - intros I. assert (X : existsb (Nat.eqb i) vs = true) by (apply existsb_exists; exists i; split; [exact I|apply Nat.eqb_refl]). congruence.
    - apply Bool.not_true_is_false. intros X. apply existsb_exists in X as (x & I & X). apply Nat.eqb_eq in X. subst x. contradiction. }
  assert (ND0 : NoDup U0) by (apply NoDup_filter, seq_NoDup).
  assert (A0 : avoids U0 ts).
  { intros t It. apply In_nth_error in It as (j & Ej). destruct (GbProofs.Forall2_nth _ _ _ _ _ H Ej) as (v & Ev & Nv & _). exists v. split; [exact Nv|].
    intros X. apply I0 in X as [_ X]. apply X. eapply nth_error_In; exact Ev. }
  assert (Len0 : length vs + length U0 = n).
  { rewrite <- app_length. rewrite <- (seq_length n 0). apply Permutation_length. apply NoDup_Permutation; [|apply seq_NoDup|].
    - assert (D : forall v, In v vs -> ~ In v U0) by (intros v I X; apply I0 in X as [_ X]; contradiction). clearbody U0. clear - ND0 NDv D. induction vs as [|v l IH]; [exact ND0|]. inversion NDv; subst. cbn.
      constructor; [|apply IH; [assumption|intros x I; apply D; right; exact I]]. intros I. apply in_app_iff in I as [I|I]; [contradiction|]. apply (D v (or_introl eq_refl) I).
    - intros i. rewrite in_app_iff, I0, in_seq. split; [intros [I|[I _]]; [destruct (L2 i I)|]; lia|]. intros Hi. destruct (in_dec Nat.eq_dec i vs); [left; assumption|right; split; [lia|assumption]]. }
  split; [lia|]. split.
  - exists U0. split; [exact ND0|]. split; [intros i I; apply I0 in I; apply I|]. split; [|lia].
    apply (free_independent (olt OS) laws); [exact GB|]. apply (avoids_free FS OS U0 gens ts W Ld). exact A0.
  - intros U ND Un Ind. destruct (dim_theorem (olt OS) laws n (map val gens) U GB Wt) as (U' & A & B & D & E); auto.
    + intros g I. apply in_map_iff in I as (g0 & <- & I). rewrite Forall_forall in W, V. intros m N i Hi. apply (pwf_support FS g0 m (W g0 I)) in N as (t & It & <-).
      rewrite canon_exp. unfold expo. apply nth_overflow. specialize (V g0 I t It). lia.
    + intros d. apply (C118_exists FS O OS n d gens).
    + specialize (Up U' A B). apply (avoids_free FS OS U' gens ts W Ld) in E. specialize (Up E). lia.
Qed.
End Coprime.

(** ** Concrete cases *)
(** 2 x^2 + y^3 + 1 and 3 y^3 - z with Lex: the leading terms x^2 and y^3 are coprime *)
Definition cf : poly RR := [ex_t 2 1 [2]; ex_t 1 1 [0; 3]; ex_t 1 1 []].
Definition cg : poly RR := [ex_t 3 1 [0; 3]; ex_t (-1) 1 [0; 0; 1]].
Example C130_ex_hyps : Forall (pwf rat_spec) [cf; cg] /\ Forall (fun g : poly RR => forall t, In t g -> length (tdeg t) <= 3) [cf; cg] /\
  leads lex_cmp [cf; cg] [ex_t 2 1 [2]; ex_t 3 1 [0; 3]] /\ pairwise_coprime [ex_t 2 1 [2]; ex_t 3 1 [0; 3]] /\ Forall nonconstant [ex_t 2 1 [2]; ex_t 3 1 [0; 3]].
Proof.
  split; [repeat (constructor; [apply ex_clean; reflexivity|]); constructor|].
  split; [repeat (constructor; [intros t I; repeat (destruct I as [<-|I]; [cbn; lia|]); destruct I|]); constructor|].
  split; [repeat constructor|]. split; [|repeat (constructor; [first [exists 0; discriminate|exists 1; discriminate]|]); constructor].
  intros [|[|i]] [|[|j]] s t N E1 E2; try congruence; try (destruct i; discriminate); try (destruct j; discriminate); injection E1 as <-; injection E2 as <-;
    intros [|[|k]]; cbn; auto; destruct k; auto.
Qed.
Example C130_ex_criterion : buchberger_criterion Debug lex_cmp 20 [cf; cg] = Ok true.
Proof. reflexivity. Qed.
Example C130_ex_extend : buchberger_extend Debug lex_cmp 20 [cf; cg] = Ok [cf; cg].
Proof. reflexivity. Qed.
(** the S-polynomial is not 0, its remainder is *)
Example C130_ex_pair : let p : poly RR := [ex_t 1 2 [0; 6]; ex_t 1 2 [0; 3]; ex_t 1 3 [2; 0; 1]] in
  try_reduce Debug lex_cmp cf cg = Ok (Some p) /\ divide Debug lex_cmp 20 p [cf; cg] = Ok ([], [[ex_t 1 6 [0; 0; 1]]; [ex_t 1 6 [0; 3]; ex_t 1 6 []]]).
Proof. split; reflexivity. Qed.
(** the algorithm replaces y^3 in the first *)
Example C130_ex_algorithm : buchberger_algorithm Debug lex_cmp 20 [cf; cg] = Ok [cg; [ex_t 2 1 [2]; ex_t 1 3 [0; 0; 1]; ex_t 1 1 []]].
Proof. reflexivity. Qed.
(** a curve in space *)
Example C130_ex_dimension : largest 3 (fun U => independent_vars U (map (ip rat_spec) [cf; cg])) 1.
Proof. destruct C130_ex_hyps as (W & V & L & C & N). exact (proj2 (C130_dimension rat_spec lex_spec 3 _ _ lex_weightable W V L C N)). Qed.
(** leading terms with a common variable: x y - 1 and x z are not a Groebner basis *)
Example C130_ex_common : buchberger_criterion Debug lex_cmp 20 ([[ex_t 1 1 [1; 1]; ex_t (-1) 1 []]; [ex_t 1 1 [1; 0; 1]]] : list (poly RR)) = Ok false.
Proof. reflexivity. Qed.

Print Assumptions C130_groebner.
Print Assumptions C130_pair.
Print Assumptions C130_extend.
Print Assumptions C130_algorithm.
Print Assumptions C130_dimension.
