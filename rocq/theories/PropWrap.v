(** * Property C143: exponents in release builds.

    Without overflow checks the u8 exponents wrap around.  Over exact coefficients all operations are then right up to
    x_i^256 = 1, for whatever comparison is used as the order; nothing more holds. *)
From Coq Require Import ZArith QArith Qcanon.
From Verif Require Import Base BaseLemmas IntModel RatModel FieldIface RatProofs MDegModel OrdModel PolyModel CompModel
  MonoSpec MDegProofs OrdProofs PolySpec PolyProofs GroebnerSpec DivProofs Ideal PropPoly PropDiv PropUnclean WrapSpec.
From Coq Require Import Lia Ring Field Setoid Morphisms Permutation.
Local Open Scope nat_scope.

(** ** sums of multidegrees *)
Lemma expo_app_l a b i : i < length a -> expo (a ++ b) i = expo a i.
Proof. intros H. unfold expo. apply app_nth1. exact H. Qed.
Lemma expo_app_r a b i : length a <= i -> expo (a ++ b) i = expo b (i - length a).
Proof. intros H. unfold expo. apply app_nth2. lia. Qed.
Lemma expo_app_zeros a n i : expo (a ++ repeat 0 n) i = expo a i.
Proof.
  destruct (Nat.lt_ge_cases i (length a)) as [L|L]; [apply expo_app_l; exact L|]. rewrite expo_app_r by exact L. unfold expo. rewrite (nth_overflow a) by exact L.
  generalize (i - length a). clear. induction n as [|n IH]; intros [|j]; cbn; try reflexivity. apply IH.
Qed.
Definition lcong (a b : list nat) : Prop := forall i, expo a i mod 256 = expo b i mod 256.
Lemma lcong_app a b c : lcong b c -> lcong (a ++ b) (a ++ c).
Proof. intros H i. destruct (Nat.lt_ge_cases i (length a)) as [L|L]; [rewrite !expo_app_l by exact L; reflexivity|]. rewrite !expo_app_r by exact L. apply H. Qed.
Lemma lcong_cons x y l : x mod 256 = y mod 256 -> lcong (x :: l) (y :: l).
Proof. intros H [|i]; [exact H|reflexivity]. Qed.
Lemma u8_zeros n : u8s (repeat 0 n).
Proof. apply Forall_forall. intros x I. apply repeat_spec in I. lia. Qed.
Lemma add_loop_wrap ps : forall degs zc d, Forall (fun p => match p with Both _ _ => True | Left a => a <= 255 | Right b => b <= 255 end) ps -> u8s degs ->
  mdeg_add_loop Release ps degs zc = Ok d -> u8s d /\ lcong d (degs ++ repeat 0 zc ++ map eb_add ps).
Proof.
  induction ps as [|p ps IH]; intros degs zc d Hp Hd E.
  - injection E as <-. split; [exact Hd|]. intros i. cbn [map]. rewrite app_nil_r, expo_app_zeros. reflexivity.
  - inversion Hp as [|? ? Hq Hps]; subst.
    assert (Z : forall q, eb_add q = 0 -> mdeg_add_loop Release ps degs (zc + 1) = Ok d -> u8s d /\ lcong d (degs ++ repeat 0 zc ++ map eb_add (q :: ps))).
    { intros q Eq X. destruct (IH degs (zc + 1) d Hps Hd X) as [U C]. split; [exact U|]. cbn [map]. rewrite Eq, <- repeat_snoc. exact C. }
    assert (N : forall q c, c <= 255 -> c mod 256 = eb_add q mod 256 -> mdeg_add_loop Release ps (degs ++ repeat 0 zc ++ [c]) 0 = Ok d ->
      u8s d /\ lcong d (degs ++ repeat 0 zc ++ map eb_add (q :: ps))).
    { intros q c Lc Ec X. destruct (IH (degs ++ repeat 0 zc ++ [c]) 0 d Hps) as [U C]; [apply Forall_app; split; [exact Hd|]; apply Forall_app; split; [apply u8_zeros|]; constructor; [exact Lc|constructor]|exact X|].
      split; [exact U|]. intros i. rewrite (C i). rewrite <- !app_assoc. cbn [app repeat map]. apply lcong_app, lcong_app, lcong_cons. exact Ec. }
    assert (B : forall a b, (c <- u8_add Release a b ;; mdeg_add_loop Release ps (degs ++ repeat 0 zc ++ [c]) 0) = Ok d -> u8s d /\ lcong d (degs ++ repeat 0 zc ++ map eb_add (Both a b :: ps))).
    { intros a b X. apply bind_Ok in X as (c & Ec & X). unfold u8_add in Ec. destruct (Nat.leb_spec (a + b) 255) as [L|G]; injection Ec as <-.
      - apply (N (Both a b) (a + b)); [exact L|reflexivity|exact X].
      - apply (N (Both a b) ((a + b) mod 256)); [|cbn [eb_add]; apply Nat.mod_mod; discriminate|exact X]. pose proof (Nat.mod_upper_bound (a + b) 256 ltac:(discriminate)). lia. }
    destruct p as [[|a] [|b]|[|a]|[|b]].
    + exact (Z (Both 0 0) eq_refl E).
    + exact (B 0 (S b) E).
    + exact (B (S a) 0 E).
    + exact (B (S a) (S b) E).
    + exact (Z (Left 0) eq_refl E).
    + exact (N (Left (S a)) (S a) Hq eq_refl E).
    + exact (Z (Right 0) eq_refl E).
    + exact (N (Right (S b)) (S b) Hq eq_refl E).
Qed.
Lemma add_total ps : forall degs zc, exists d, mdeg_add_loop Release ps degs zc = Ok d.
Proof.
  induction ps as [|p ps IH]; intros degs zc; [exists degs; reflexivity|].
  assert (B : forall a b, exists d, (c <- u8_add Release a b ;; mdeg_add_loop Release ps (degs ++ repeat 0 zc ++ [c]) 0) = Ok d).
  { intros a b. unfold u8_add. destruct (a + b <=? 255); cbn [bind]; apply IH. }
  destruct p as [[|a] [|b]|[|a]|[|b]]; cbn [mdeg_add_loop]; try apply IH; apply B.
Qed.
Lemma mdeg_add_wrap a b : u8s a -> u8s b -> exists d, mdeg_add Release a b = Ok d /\ u8s d /\ forall i, expo d i mod 256 = (expo a i + expo b i) mod 256.
Proof.
  intros Ha Hb. unfold mdeg_add. destruct (add_total (zip_longest a b) [] 0) as (d & E). exists d. split; [exact E|].
  destruct (add_loop_wrap (zip_longest a b) [] 0 d (zip_longest_u8 a b Ha Hb) (Forall_nil _) E) as [U C]. split; [exact U|]. intros i. rewrite (C i). cbn [app repeat].
  rewrite (zip_longest_map eb_add Nat.add), lzip_expo by (intros; cbn; lia). reflexivity.
Qed.

Section PropWrap.
Context {F : FieldImpl} {K : MathField} (FS : FieldSpec F K).
Add Field Kf80 : (kth K).
Add Ring Wr80 : (@weq_ring K) (setoid (@weq_equiv K) (@weq_ring_ext K)).
Notation term := (term F).
Notation poly := (poly F).
Notation val := (ip FS).
Notation it := (it FS).
Notation den := (den FS).
Notation rawt := (rawt FS).
Notation raw := (raw FS).

Lemma wterm_mul (a b : term) : rawt a -> rawt b -> safe (term_mul Release a b) (fun r => rawt r /\ weq (it r) (pmul (it a) (it b))).
Proof.
  intros Ha Hb. unfold term_mul. assert (Z : rawt (@term_zero F)) by (apply raw_of_okterm; apply term_zero_wf).
  destruct (term_is_zero a) eqn:Ea; simpl.
  { split; [apply Z|]. rewrite (peq_weq _ _ (it_term_zero FS)), (peq_weq _ _ (it_zero FS a (proj1 Ha) Ea)). ring. }
  destruct (term_is_zero b) eqn:Eb; simpl.
  { split; [apply Z|]. rewrite (peq_weq _ _ (it_term_zero FS)), (peq_weq _ _ (it_zero FS b (proj1 Hb) Eb)). ring. }
  eapply safe_bind; [apply (mul_ok _ _ FS); [apply Ha|apply Hb]|]. intros c [Wc Dc].
  destruct (mdeg_add_wrap (tdeg a) (tdeg b) (proj2 Ha) (proj2 Hb)) as (d & -> & Ud & Ed). cbn [bind safe].
  split; [split; [exact Wc|exact Ud]|]. unfold PolyProofs.it. cbn [coef tdeg]. rewrite (peq_weq _ _ (pterm_mul _ _ _ _)), Dc. apply weq_pterm.
  intros i. rewrite mmul_exp, !canon_exp. apply Ed.
Qed.
Lemma wip_cons t (p : poly) : weq (val (t :: p)) (padd (it t) (val p)).
Proof. rewrite ip_cons. reflexivity. Qed.
Lemma wmul_term (p : poly) t : raw p -> rawt t -> safe (poly_mul_term Release p t) (fun r => raw r /\ weq (val r) (pmul (val p) (it t))).
Proof.
  intros Hp Ht. unfold poly_mul_term. destruct (term_is_zero t) eqn:Et; simpl.
  { split; [constructor|]. rewrite (peq_weq _ _ (it_zero FS t (proj1 Ht) Et)). change (val poly_zero) with (@pzero K). ring. }
  destruct (poly_is_zero p) eqn:Ez.
  { destruct p; [|discriminate]. simpl. split; [constructor|]. change (val poly_zero) with (@pzero K). change (val []) with (@pzero K). ring. }
  clear Ez. induction Hp as [|s p Hs Hp IH]; simpl.
  - split; [constructor|]. change (val []) with (@pzero K). ring.
  - eapply safe_bind; [apply wterm_mul; [exact Hs|exact Ht]|]. intros s' (Ws & Es).
    eapply safe_bind; [exact IH|]. intros r (Wr & Er). simpl. split; [constructor; assumption|]. rewrite !wip_cons, Es, Er. ring.
Qed.
Lemma wmul (p q : poly) : raw p -> raw q -> safe (poly_mul Release p q) (fun r => raw r /\ weq (val r) (pmul (val p) (val q))).
Proof.
  intros Hp Hq. unfold poly_mul, reduce_iter. destruct Hp as [|t p Ht Hp]; simpl.
  { split; [constructor|]. change (val poly_zero) with (@pzero K). change (val []) with (@pzero K). ring. }
  assert (G : forall acc (A : spoly K), raw acc -> weq (val acc) A ->
     safe (foldM (fun acc y => b <- y ;; poly_add acc b) (map (fun t => term_mul_poly Release t q) p) acc)
       (fun r => raw r /\ weq (val r) (padd A (pmul (val p) (val q))))).
  { clear t Ht. induction Hp as [|t p Ht Hp IH]; intros acc A Wa Ea; simpl.
    - split; [exact Wa|]. rewrite Ea. change (val []) with (@pzero K). ring.
    - rewrite bind_assoc. eapply safe_bind; [apply (wmul_term q t); assumption|]. intros b (Wb & Eb).
      eapply safe_bind; [apply (add_raw FS); [exact Wa|exact Wb]|]. intros acc' [Wa' Ea'].
      eapply safe_mono; [apply (IH acc' (padd A (pmul (it t) (val q))) Wa')|].
      + rewrite (peq_weq _ _ Ea'), Ea, Eb. ring.
      + intros r [Wr Er]. split; [exact Wr|]. rewrite Er, wip_cons. ring. }
  rewrite bind_assoc. eapply safe_bind; [apply (wmul_term q t); assumption|]. intros b (Wb & Eb).
  rewrite bind_assoc. eapply safe_bind; [apply (G b _ Wb Eb)|]. intros r [Wr Er]. simpl.
  split; [exact Wr|]. rewrite Er, wip_cons. ring.
Qed.
Lemma wscale (p : poly) c : raw p -> fwf FS c -> safe (poly_scale Release p c) (fun r => raw r /\ weq (val r) (pmul (val p) (pterm (den c) mone))).
Proof.
  intros Hp Hc. unfold poly_scale. eapply safe_mono; [apply wmul_term; [exact Hp|split; [exact Hc|constructor]]|]. intros r (W & E). split; [exact W|exact E].
Qed.

(** ** division *)
(** no zero coefficients *)
Definition nzc (p : poly) : Prop := Forall (fun t : term => term_is_zero t = false) p.
Lemma add_term_nzc (p r : poly) t : nzc p -> poly_add_term p t = Ok r -> nzc r.
Proof.
  intros H E. unfold poly_add_term in E. destruct (poly_is_zero p).
  { injection E as <-. unfold poly_from_term. destruct (term_is_zero t) eqn:Z; [constructor|]. constructor; [exact Z|constructor]. }
  destruct (term_is_zero t) eqn:Z; [injection E as <-; exact H|]. destruct (position _ p) as [i|] eqn:Ep.
  - apply bind_Ok in E as (ti & Ei & E). apply bind_Ok in E as (c & Ec & E). apply position_Some in Ep as (l1 & x & l2 & -> & <- & _).
    apply Forall_app in H as [H1 H2]. inversion H2 as [|? ? Hx H3]; subst. destruct (term_is_zero (mkterm c (tdeg ti))) eqn:Y; injection E as <-.
    + rewrite list_remove_split. apply Forall_app. split; assumption.
    + rewrite list_set_split. apply Forall_app. split; [assumption|constructor; assumption].
  - injection E as <-. apply Forall_app. split; [exact H|]. constructor; [exact Z|constructor].
Qed.

Section AnyOrder.
Context (O : ord_impl).
Lemma wdivide_loop divs : Forall raw divs -> forall fuel (f : poly) quots rem r qs, raw f ->
  Forall raw quots -> length quots = length divs -> raw rem -> nzc rem ->
  divide_loop Release O fuel f divs quots rem = Ok (r, qs) ->
  raw r /\ nzc r /\ Forall raw qs /\ length qs = length divs /\
  weq (padd (lincomb (map val qs) (map val divs)) (val r)) (padd (val f) (padd (lincomb (map val quots) (map val divs)) (val rem))).
Proof.
  intros Wd. induction fuel as [|n IH]; intros f quots rem r qs Wf Wq L Wr Nr E; cbn [divide_loop] in E;
    apply bind_Ok in E as (o & Eo & E); pose proof (leading_raw FS O f o Wf Eo) as Ho;
    destruct o as [t|]; try discriminate.
  - injection E as <- <-. subst f. split; [exact Wr|]. split; [exact Nr|]. split; [exact Wq|]. split; [exact L|]. change (val []) with (@pzero K). ring.
  - apply bind_Ok in E as (o & Et & E).
    pose proof (try_divisors_raw FS O t Ho divs quots o Wd Wq L Et) as H.
    destruct o as [[[qs' a] g]|].
    + destruct H as (Wa & Ig & Wqs & Lq & Eq). apply bind_Ok in E as (ag & Eag & E). apply bind_Ok in E as (f' & Ef & E).
      assert (Wg : raw g) by (rewrite Forall_forall in Wd; auto).
      destruct (safe_val _ _ _ (wmul_term g a Wg Wa) Eag) as (Wag & Vag).
      destruct (safe_val _ _ _ (sub_raw FS f ag Wf Wag) Ef) as [Wf' Vf'].
      destruct (IH f' qs' rem r qs Wf' Wqs Lq Wr Nr E) as (A & A' & B & C & D). split; [exact A|]. split; [exact A'|]. split; [exact B|]. split; [exact C|].
      rewrite D, (peq_weq _ _ Eq), (peq_weq _ _ Vf'), Vag. ring.
    + apply bind_Ok in E as (fs & Es & E). pose proof (sort_perm _ _ _ Es) as P.
      assert (Wfs : raw fs) by (unfold PropUnclean.raw; rewrite <- P; exact Wf). pose proof (peq_weq _ _ (ip_perm FS f fs P)) as Vf.
      pose proof (vec_pop_spec fs) as Hv. destruct (vec_pop fs) as [f' [l|]].
      * subst fs. apply Forall_app in Wfs as [Wf' Wl]. inversion Wl as [|? ? Wl' _]; subst.
        apply bind_Ok in E as (rem' & Erem & E). destruct (safe_val _ _ _ (add_term_raw FS rem l Wr Wl') Erem) as [Wrem' Vrem].
        destruct (IH f' quots rem' r qs Wf' Wq L Wrem' (add_term_nzc _ _ _ Nr Erem) E) as (A & A' & B & C & D). split; [exact A|]. split; [exact A'|]. split; [exact B|]. split; [exact C|].
        rewrite D, (peq_weq _ _ Vrem), Vf, (ip_app FS f' [l]), wip_cons. change (val []) with (@pzero K). ring.
      * destruct Hv as [-> ->]. destruct (IH [] quots rem r qs (Forall_nil _) Wq L Wr Nr E) as (A & A' & B & C & D).
        split; [exact A|]. split; [exact A'|]. split; [exact B|]. split; [exact C|]. rewrite D, Vf. reflexivity.
  - injection E as <- <-. subst f. split; [exact Wr|]. split; [exact Nr|]. split; [exact Wq|]. split; [exact L|]. change (val []) with (@pzero K). ring.
Qed.
Lemma wdivide fuel (f : poly) divs r qs : raw f -> Forall raw divs -> divide Release O fuel f divs = Ok (r, qs) ->
  raw r /\ nzc r /\ length qs = length divs /\ weq (val f) (padd (lincomb (map val qs) (map val divs)) (val r)).
Proof.
  intros Wf Wd E. unfold divide in E.
  assert (Z : weq (lincomb (map val (repeat poly_zero (length divs))) (map val divs)) pzero).
  { clear. induction divs as [|g divs IH]; [reflexivity|]. cbn [length repeat map lincomb]. rewrite IH. change (val poly_zero) with (@pzero K). ring. }
  apply (wdivide_loop divs Wd) in E as (A & A' & _ & L & D); try assumption.
  - split; [exact A|]. split; [exact A'|]. split; [exact L|]. rewrite D, Z. change (val poly_zero) with (@pzero K). ring.
  - apply Forall_forall. intros p Ip. apply repeat_spec in Ip. subst p. constructor.
  - apply repeat_length.
  - constructor.
  - constructor.
Qed.

(** ** buchberger_algorithm *)
Lemma lcm_u8 a b : u8s a -> u8s b -> u8s (mdeg_lcm a b).
Proof.
  intros Ha. revert b. induction Ha as [|x a Hx Ha IH]; intros b Hb.
  - unfold mdeg_lcm. cbn [zip_longest]. rewrite map_map, map_id. exact Hb.
  - destruct Hb as [|y b Hy Hb]; unfold mdeg_lcm in *; cbn [zip_longest map]; constructor; [exact Hx|apply IH; constructor|lia|apply IH; exact Hb].
Qed.
Lemma try_reduce_wrap (f g s : poly) : raw f -> raw g -> try_reduce Release O f g = Ok (Some s) -> raw s /\ exists a b, weq (val s) (psub (pmul a (val f)) (pmul b (val g))).
Proof.
  intros Wf Wg E. unfold try_reduce in E. apply bind_Ok in E as (lf & Elf & E). pose proof (leading_raw FS O f lf Wf Elf) as Hf. destruct lf as [tf|]; [|discriminate].
  apply bind_Ok in E as (lg & Elg & E). pose proof (leading_raw FS O g lg Wg Elg) as Hg. destruct lg as [tg|]; [|discriminate].
  assert (Wl : rawt (monic_lcm tf tg)).
  { unfold monic_lcm. destruct (term_is_zero tf || term_is_zero tg); [apply raw_of_okterm; apply term_zero_wf|]. split; [apply (wf1 _ _ FS)|]. apply lcm_u8; [apply Hf|apply Hg]. }
  cbv zeta in E. apply bind_Ok in E as (qf & Eqf & E). pose proof (try_div_raw FS _ _ qf Wl Hf Eqf) as Ha. destruct qf as [a|]; [|discriminate].
  apply bind_Ok in E as (af & Eaf & E). apply bind_Ok in E as (qg & Eqg & E). pose proof (try_div_raw FS _ _ qg Wl Hg Eqg) as Hb. destruct qg as [b|]; [|discriminate].
  apply bind_Ok in E as (bg & Ebg & E). apply bind_Ok in E as (s' & Es & E). injection E as <-.
  destruct (safe_val _ _ _ (wmul_term f a Wf Ha) Eaf) as [Waf Vaf]. destruct (safe_val _ _ _ (wmul_term g b Wg Hb) Ebg) as [Wbg Vbg].
  destruct (safe_val _ _ _ (sub_raw FS af bg Waf Wbg) Es) as [Ws Vs]. split; [exact Ws|]. exists (it a), (it b). rewrite (peq_weq _ _ Vs), Vaf, Vbg. ring.
Qed.
(** all elements valid and in the ideal *)
Definition inside (gs : list (spoly K)) (l : list poly) : Prop := Forall (fun g => raw g /\ in_wideal gs (val g)) l.
Lemma inside_raw gs l : inside gs l -> Forall raw l.
Proof. intros H. eapply Forall_impl; [|exact H]. intros g X. apply X. Qed.
Lemma inside_remove gs l i : inside gs l -> inside gs (list_remove l i).
Proof. intros H. revert i. induction H as [|x l X H IH]; intros [|i]; cbn [list_remove]; try constructor; try assumption. apply IH. Qed.
Lemma vget_inside gs l i g : inside gs l -> vget l i = Ok g -> raw g /\ in_wideal gs (val g).
Proof. intros H E. unfold vget in E. destruct (nth_error l i) as [x|] eqn:N; [|discriminate]. injection E as <-. apply nth_error_In in N. apply (proj1 (Forall_forall _ _) H). exact N. Qed.
Lemma inside_divide gs l fuel (f r : poly) qs : inside gs l -> raw f -> in_wideal gs (val f) -> divide Release O fuel f l = Ok (r, qs) -> raw r /\ nzc r /\ in_wideal gs (val r).
Proof.
  intros H Wf If E. destruct (wdivide fuel f l r qs Wf (inside_raw gs l H) E) as (Wr & Nr & L & V). split; [exact Wr|]. split; [exact Nr|].
  assert (X : weq (val r) (psub (val f) (lincomb (map val qs) (map val l)))) by (rewrite V; ring). rewrite X. apply wideal_sub; [exact If|].
  apply wideal_lincomb. intros h I. apply in_map_iff in I as (g & <- & I). apply (proj1 (Forall_forall _ _) H). exact I.
Qed.
Lemma extend_inner_inside gs l fuel i js o : inside gs l -> extend_inner Release O fuel l i js = Ok o -> match o with Some r => raw r /\ in_wideal gs (val r) | None => True end.
Proof.
  intros H. revert o. induction js as [|j js IH]; intros o E; cbn [extend_inner] in E; [injection E as <-; exact I|].
  apply bind_Ok in E as (gi & Ei & E). apply bind_Ok in E as (gj & Ej & E). apply bind_Ok in E as (s & Es & E). apply bind_Ok in E as (s' & Eu & E). unfold unwrap in Eu. destruct s as [s|]; [|discriminate]. injection Eu as <-.
  apply bind_Ok in E as ([r qs] & Ed & E). apply bind_Ok in E as (lc & Elc & E).
  destruct (vget_inside gs l i gi H Ei) as [Wi Ii]. destruct (vget_inside gs l j gj H Ej) as [Wj Ij].
  destruct (try_reduce_wrap gi gj s Wi Wj Es) as (Ws & a & b & Vs).
  assert (Is : in_wideal gs (val s)) by (rewrite Vs; apply wideal_sub; apply wideal_mul; assumption).
  destruct (inside_divide gs l fuel s r qs H Ws Is Ed) as (Wr & Nr & Ir). destruct lc as [c|]; [|apply IH; exact E].
  apply bind_Ok in E as (r' & Er & E). injection E as <-. unfold leading_coef in Elc. apply bind_Ok in Elc as (ot & Eot & Elc). injection Elc as Elc. destruct ot as [t|]; [|discriminate]. injection Elc as <-.
  pose proof (leading_raw FS O r (Some t) Wr Eot) as Wt. apply max_by_in in Eot. pose proof (proj1 (Forall_forall _ _) Nr t Eot) as Nt.
  unfold poly_div_scalar in Er. apply bind_Ok in Er as (iv & Ei' & Er).
  destruct (safe_val _ _ _ (inv_ok _ _ FS (coef t) (proj1 Wt) (proj1 (is_zero_false FS t (proj1 Wt)) Nt)) Ei') as [Wiv _].
  destruct (safe_val _ _ _ (wscale r iv Wr Wiv) Er) as [Wr' Vr']. split; [exact Wr'|]. rewrite Vr'. assert (X : weq (pmul (val r) (pterm (den iv) mone)) (pmul (pterm (den iv) mone) (val r))) by ring. rewrite X. apply wideal_mul. exact Ir.
Qed.
Lemma extend_inside gs dfuel fuel : forall l i out, inside gs l -> extend_loop Release O dfuel fuel l i = Ok out -> inside gs out.
Proof.
  induction fuel as [|n IH]; intros l i out H E; cbn [extend_loop] in E; destruct (i <? length l); try discriminate; try (injection E as <-; exact H).
  apply bind_Ok in E as (o & Eo & E). pose proof (extend_inner_inside gs l dfuel i _ o H Eo) as X. destruct o as [r|]; [|exact (IH _ _ _ H E)].
  eapply IH; [|exact E]. apply Forall_app; split; [exact H|constructor; [exact X|constructor]].
Qed.
Lemma minimize_inside gs fuel : forall l out, inside gs l -> minimize_loop O fuel l = Ok out -> inside gs out.
Proof.
  induction fuel as [|n IH]; intros l out H E; cbn [minimize_loop] in E; [discriminate|]. apply bind_Ok in E as (o & _ & E). destruct o as [i|]; [|injection E as <-; exact H].
  apply (IH _ _ (inside_remove gs l i H) E).
Qed.
Lemma reduce_inside gs dfuel fuel : forall l out, inside gs l -> reduce_loop Release O dfuel fuel l = Ok out -> inside gs out.
Proof.
  induction fuel as [|n IH]; intros l out H E; cbn [reduce_loop] in E; [discriminate|]. apply bind_Ok in E as (o & _ & E). destruct o as [i|]; [|injection E as <-; exact H].
  apply bind_Ok in E as (g & Eg & E). cbv zeta in E. apply bind_Ok in E as ([r qs] & Ed & E). destruct (vget_inside gs l i g H Eg) as [Wg Ig].
  destruct (inside_divide gs _ dfuel g r qs (inside_remove gs l i H) Wg Ig Ed) as (Wr & _ & Ir).
  eapply IH; [|exact E]. apply Forall_app; split; [apply inside_remove; exact H|constructor; [split; assumption|constructor]].
Qed.
Lemma walgorithm fuel (gens out : list poly) : Forall raw gens -> buchberger_algorithm Release O fuel gens = Ok out -> inside (map val gens) out.
Proof.
  intros W E. unfold buchberger_algorithm in E. apply bind_Ok in E as (g1 & E1 & E). apply bind_Ok in E as (g2 & E2 & E).
  apply (reduce_inside _ fuel fuel g2 out); [|exact E]. apply (minimize_inside _ fuel g1 g2); [|exact E2]. apply (extend_inside _ fuel fuel gens 0 g1); [|exact E1].
  rewrite Forall_forall in W. apply Forall_forall. intros g I. split; [apply W; exact I|]. apply wideal_gen. apply in_map. exact I.
Qed.
End AnyOrder.

(** ** C143 *)
(** products *)
Theorem C143_mul : forall p q : poly, raw p -> raw q ->
  safe (poly_mul Release p q) (fun r => raw r /\ weq (val r) (pmul (val p) (val q))).
Proof. exact wmul. Qed.
(** division, with any comparison *)
Theorem C143_division : forall O fuel (f : poly) divs r qs, raw f -> Forall raw divs -> divide Release O fuel f divs = Ok (r, qs) ->
  length qs = length divs /\ weq (val f) (padd (lincomb (map val qs) (map val divs)) (val r)).
Proof. intros O fuel f divs r qs Wf Wd E. apply (wdivide O fuel f divs r qs Wf Wd E). Qed.
(** the result of buchberger_algorithm lies in the ideal *)
Theorem C143_buchberger : forall O fuel (gens out : list poly), Forall raw gens -> buchberger_algorithm Release O fuel gens = Ok out ->
  forall g, In g out -> in_wideal (map val gens) (val g).
Proof. intros O fuel gens out W E g I. apply (proj1 (Forall_forall _ _) (walgorithm O fuel gens out W E) g I). Qed.

(** points with coordinates x_i^256 = 1 *)
Definition unit_root (c : F) : Prop := kpow (den c) 256 = k1.
Definition point (x : list F) (i : nat) : K := den (nth i x f1).
Lemma kpow_one n : kpow (k1 : K) n = k1.
Proof. induction n as [|n IH]; cbn [kpow]; [reflexivity|]. rewrite IH. ring. Qed.
Lemma point_root x : Forall unit_root x -> forall i, kpow (point x i) 256 = k1.
Proof.
  intros H i. unfold point. destruct (Nat.lt_ge_cases i (length x)) as [L|L]; [apply (proj1 (Forall_forall _ _) H); apply nth_In; exact L|].
  rewrite nth_overflow by exact L. rewrite (den1 _ _ FS). apply kpow_one.
Qed.
(** no term mentions a variable beyond the coordinates *)
Definition fits (x : list F) (p : poly) : Prop := Forall (fun t => length (tdeg t) <= length x) p.
Lemma mval_up_ext (x y : nat -> K) d n : (forall i, i < n -> x i = y i) -> mval_up x d n = mval_up y d n.
Proof. induction n as [|n IH]; intros H; cbn [mval_up]; [reflexivity|]. rewrite IH by (intros i L; apply H; lia). rewrite (H n) by lia. reflexivity. Qed.
Lemma peval_point (p : poly) x : fits x p -> peval (point x) (val p) = peval (pt FS x) (val p).
Proof.
  intros H. induction H as [|t p L H IH]; [reflexivity|]. rewrite ip_cons. unfold peval, padd in *. rewrite !ev_app, IH, !ev_it. do 2 f_equal.
  assert (V : mvars (length (tdeg t)) (canon (tdeg t))) by (intros i Hi; rewrite canon_exp; unfold expo; apply nth_overflow; exact Hi).
  rewrite !(mval_up_eq _ _ _ V). apply mval_up_ext. intros i Li. unfold point, pt. f_equal. apply nth_indep. lia.
Qed.
Lemma eval_point (p : poly) x v : raw p -> Forall (fwf FS) x -> fits x p -> poly_eval p x = Ok v -> den v = peval (point x) (val p).
Proof. intros Wp Wx L E. rewrite (peval_point p x L). exact (proj2 (safe_val _ _ _ (eval_raw FS p x Wp Wx L) E)). Qed.

(** at a point all of whose coordinates are 256th roots of unity, for instance +-1, products have the right values *)
Theorem C143_eval : forall (p q r : poly) x a b c, raw p -> raw q -> Forall (fwf FS) x -> Forall unit_root x -> fits x p -> fits x q -> fits x r ->
  poly_mul Release p q = Ok r -> poly_eval p x = Ok a -> poly_eval q x = Ok b -> poly_eval r x = Ok c -> den c = kmul (den a) (den b).
Proof.
  intros p q r x a b c Wp Wq Wx R Lp Lq Lr E Ea Eb Ec. destruct (safe_val _ _ _ (wmul p q Wp Wq) E) as [Wr V].
  rewrite (eval_point p x a Wp Wx Lp Ea), (eval_point q x b Wq Wx Lq Eb), (eval_point r x c Wr Wx Lr Ec), <- peval_mul. apply weq_peval; [apply point_root; exact R|exact V].
Qed.
(** and common zeros of the generators are zeros of the result of buchberger_algorithm *)
Theorem C143_zeros : forall O fuel (gens out : list poly) x, Forall raw gens -> Forall (fwf FS) x -> Forall unit_root x -> Forall (fits x) gens ->
  (forall g, In g gens -> exists v, poly_eval g x = Ok v /\ den v = k0) -> buchberger_algorithm Release O fuel gens = Ok out ->
  forall g v, In g out -> fits x g -> poly_eval g x = Ok v -> den v = k0.
Proof.
  intros O fuel gens out x Wg Wx R Lg Z E g v I L Ev. pose proof (walgorithm O fuel gens out Wg E) as H. destruct (proj1 (Forall_forall _ _) H g I) as [Wr Ig].
  rewrite (eval_point g x v Wr Wx L Ev). apply (wideal_zero_at (point x) (map val gens)); [apply point_root; exact R| |exact Ig].
  intros h Ih. apply in_map_iff in Ih as (g' & <- & I'). rewrite Forall_forall in Wg, Lg. destruct (Z g' I') as (w & Ew & Dw). rewrite <- (eval_point g' x w (Wg g' I') Wx (Lg g' I') Ew). exact Dw.
Qed.
End PropWrap.

(** ** what fails in release builds *)
Notation RR := (rat_impl Debug).
Notation RW := (rat_impl Release).
(** a term with integer coefficient, with the arithmetic of release builds throughout *)
Definition ex_w (n : Z) (d : mdeg) : term RW := @mkterm RW (mkrat n 1 : RW) d.
Definition ex_loop_f : poly RW := [ex_w 1 [2; 254]].
Definition ex_loop_g : list (poly RW) := [[ex_w 1 [2]; ex_w (-1) [0; 1]]; [ex_w 1 [2; 254]; ex_w 1 [0; 255]]].
Lemma loop_again n : divide_loop Release (grlex_cmp Release) (S (S (S (S n)))) ex_loop_f ex_loop_g [[]; []] [] = divide_loop Release (grlex_cmp Release) n ex_loop_f ex_loop_g [[]; []] [].
Proof. reflexivity. Qed.
(** x^2 y^254 divided by x^2 - y and x^2 y^254 + y^255 with GrLex never ends: the total degree 256 counts as 0 *)
Theorem C143_divide_ends_refuted : forall fuel, divide Release (grlex_cmp Release) fuel ex_loop_f ex_loop_g = NoFuel.
Proof.
  unfold divide. change (repeat poly_zero (length ex_loop_g)) with [[] : poly RW; []]. change (@poly_zero RW) with ([] : poly RW).
  assert (H : forall n, divide_loop Release (grlex_cmp Release) n ex_loop_f ex_loop_g [[]; []] [] = NoFuel /\
    divide_loop Release (grlex_cmp Release) (S n) ex_loop_f ex_loop_g [[]; []] [] = NoFuel /\
    divide_loop Release (grlex_cmp Release) (S (S n)) ex_loop_f ex_loop_g [[]; []] [] = NoFuel /\
    divide_loop Release (grlex_cmp Release) (S (S (S n))) ex_loop_f ex_loop_g [[]; []] [] = NoFuel); [|intros n; apply H].
  induction n as [|n (A & B & C & D)]; [repeat split; reflexivity|]. split; [exact B|]. split; [exact C|]. split; [exact D|]. rewrite loop_again. exact A.
Qed.

Section Weights.
Context {F : FieldImpl} {K : MathField} (FS : FieldSpec F K).
Add Field Kf81 : (kth K).
Notation val := (ip FS).
(** the sum of the coefficients of the terms of weight n, for the weight w e_0 + e_1 *)
Definition wt (w n : nat) (d : mono) : K := if w * mexp d 0 + mexp d 1 =? n then k1 else k0.
Lemma wt_one w n (t : term F) : ev (val [t]) (wt w n) = kmul (den FS (coef t)) (if w * expo (tdeg t) 0 + expo (tdeg t) 1 =? n then k1 else k0).
Proof. rewrite ip_cons. unfold padd. rewrite ev_app, ev_it. unfold wt. rewrite !canon_exp. change (ev (val []) _) with (@k0 K). ring. Qed.
Lemma wt_two w n (t u : term F) : ev (val [t; u]) (wt w n) = kadd (kmul (den FS (coef t)) (if w * expo (tdeg t) 0 + expo (tdeg t) 1 =? n then k1 else k0)) (kmul (den FS (coef u)) (if w * expo (tdeg u) 0 + expo (tdeg u) 1 =? n then k1 else k0)).
Proof. rewrite ip_cons. unfold padd. rewrite ev_app, wt_one, ev_it. unfold wt. rewrite !canon_exp. reflexivity. Qed.
(** multiples of a term of larger weight have nothing of weight n *)
Lemma wt_mul_high w n (p : spoly K) (t : term F) : n < w * expo (tdeg t) 0 + expo (tdeg t) 1 -> ev (pmul p (val [t])) (wt w n) = k0.
Proof.
  intros L. rewrite ev_pmul. rewrite (ev_ext p _ (fun _ => k0)); [apply ev_zero_fun|].
  intros a. rewrite ip_cons. unfold padd. rewrite ev_app, ev_it. change (ev (val []) _) with (@k0 K). unfold wt. rewrite !mmul_exp, !canon_exp.
  rewrite (proj2 (Nat.eqb_neq _ _)) by lia. ring.
Qed.
(** nor have multiples of a difference of two terms of the same weight *)
Lemma wt_mul_diff w n (p : spoly K) (t u : term F) : w * expo (tdeg t) 0 + expo (tdeg t) 1 = w * expo (tdeg u) 0 + expo (tdeg u) 1 ->
  kadd (den FS (coef t)) (den FS (coef u)) = k0 -> ev (pmul p (val [t; u])) (wt w n) = k0.
Proof.
  intros L Z. rewrite ev_pmul. rewrite (ev_ext p _ (fun _ => k0)); [apply ev_zero_fun|].
  intros a. rewrite !ip_cons. unfold padd. rewrite !ev_app, !ev_it. change (ev (val []) _) with (@k0 K). unfold wt. rewrite !mmul_exp, !canon_exp.
  replace (w * (mexp a 0 + expo (tdeg t) 0) + (mexp a 1 + expo (tdeg t) 1)) with (w * (mexp a 0 + expo (tdeg u) 0) + (mexp a 1 + expo (tdeg u) 1)) by lia.
  destruct (_ =? n); [|ring]. transitivity (kadd (den FS (coef t)) (den FS (coef u))); [ring|exact Z].
Qed.
End Weights.

(** a product is wrong: x^255 x gives 1, with the multidegree (0), which is not even equal to the constant 1 *)
Theorem C143_mul_refuted : exists p q r : poly RR, pwf rat_spec p /\ pwf rat_spec q /\ poly_mul Release p q = Ok r /\
  ~ peq (ip rat_spec r) (pmul (ip rat_spec p) (ip rat_spec q)) /\ Forall (fun t => term_eqb t term_one = false) r.
Proof.
  exists [ex_t 1 1 [255]], [ex_t 1 1 [1]], [ex_t 1 1 [0]]. split; [apply ex_clean; reflexivity|]. split; [apply ex_clean; reflexivity|]. split; [reflexivity|]. split; [|constructor; [reflexivity|constructor]].
  intros H. specialize (H (wt 1 0)). rewrite wt_one, wt_mul_high in H by (cbn; lia). cbn in H. discriminate.
Qed.
(** the identity of division is wrong: x y^255 by x - y with Lex has quotient y^255 and remainder 1 *)
Theorem C143_division_refuted : exists (f g q r : poly RR), pwf rat_spec f /\ pwf rat_spec g /\ divide Release lex_cmp 10 f [g] = Ok (r, [q]) /\
  ~ peq (ip rat_spec f) (padd (pmul (ip rat_spec q) (ip rat_spec g)) (ip rat_spec r)).
Proof.
  exists [ex_t 1 1 [1; 255]], [ex_t 1 1 [1]; ex_t (-1) 1 [0; 1]], [ex_t 1 1 [0; 255]], [ex_t 1 1 [0; 0]].
  split; [apply ex_clean; reflexivity|]. split; [apply ex_clean; reflexivity|]. split; [reflexivity|].
  intros H. specialize (H (wt 1 0)). unfold padd in H. rewrite ev_app, !wt_one, wt_mul_diff in H; [discriminate|reflexivity|apply Qc_is_canon; reflexivity].
Qed.
(** buchberger_algorithm leaves the ideal: from x y^200 and x - y^100 it computes x and y^44; only y^300 is in the ideal *)
Theorem C143_buchberger_refuted : exists gens : list (poly RR), exists g g', Forall (pwf rat_spec) gens /\ buchberger_algorithm Release lex_cmp 20 gens = Ok [g; g'] /\
  ~ in_ideal (map (ip rat_spec) gens) (ip rat_spec g).
Proof.
  exists [[ex_t 1 1 [1; 200]]; [ex_t 1 1 [1]; ex_t (-1) 1 [0; 100]]], [ex_t 1 1 [0; 44]], [ex_t 1 1 [1]].
  split; [constructor; [|constructor; [|constructor]]; apply ex_clean; reflexivity|]. split; [reflexivity|].
  intros (qs & L & E). destruct qs as [|q1 [|q2 [|]]]; try discriminate. specialize (E (wt 100 44)). cbn [map lincomb] in E. unfold padd in E.
  rewrite !ev_app, wt_one, wt_mul_high, wt_mul_diff in E; [discriminate|reflexivity|apply Qc_is_canon; reflexivity|apply Nat.ltb_lt; reflexivity].
Qed.

(** ** buchberger_algorithm on x y^255 and x - y with Lex does not return: the S-polynomial becomes a constant with the multidegree (0, 0), and
    multiples of the constant 1 never cancel it, since (0, 0) + () = () *)
Definition ex_n1 : poly RW := [ex_w 1 [1; 255]].
Definition ex_n2 : poly RW := [ex_w 1 [1]; ex_w (-1) [0; 1]].
Definition ex_n3 : poly RW := [ex_w 1 []].
Definition constants (p : poly RW) : Prop := Forall (fun t : term RW => tdeg t = []) p.
Lemma constants_leading a p : tdeg a = [0; 0] -> constants p -> leading_term lex_cmp (a :: p) = Ok (Some a).
Proof.
  intros A H. unfold leading_term, max_by. assert (X : foldM (fun best y => c <- term_cmp lex_cmp best y ;; Ok match c with Gt => best | _ => y end) p a = Ok a); [|rewrite X; reflexivity].
  induction H as [|t p T H IH]; [reflexivity|]. cbn [foldM]. unfold term_cmp at 1. rewrite A, T. exact IH.
Qed.
Lemma constants_add a p t r : tdeg a = [0; 0] -> constants p -> tdeg t = [] -> poly_add_term (a :: p) t = Ok r -> exists p', r = a :: p' /\ constants p'.
Proof.
  intros A H T E. unfold poly_add_term in E. cbn [poly_is_zero] in E. destruct (term_is_zero t); [injection E as <-; exists p; split; [reflexivity|exact H]|].
  destruct (position _ (a :: p)) as [i|] eqn:P.
  - apply position_Some in P as (l1 & x & l2 & El & <- & Hx & _). rewrite El in E. destruct l1 as [|a' l1].
    + injection El as -> _. cbv beta in Hx. rewrite A, T in Hx. discriminate.
    + injection El as <- ->. apply Forall_app in H as [H1 H2]. inversion H2 as [|? ? Hx' H3]; subst.
      apply bind_Ok in E as (ti & Ei & E). apply bind_Ok in E as (c & _ & E).
      assert (ti = x) as ->. { unfold vget in Ei. rewrite nth_error_app2 in Ei by lia. rewrite Nat.sub_diag in Ei. injection Ei as <-. reflexivity. }
      change (a :: l1 ++ x :: l2) with ((a :: l1) ++ x :: l2) in E. rewrite list_set_split, list_remove_split in E.
      destruct (term_is_zero _); injection E as <-; eexists; (split; [reflexivity|]); apply Forall_app; (split; [exact H1|]); [exact H3|constructor; [exact Hx'|exact H3]].
  - injection E as <-. exists (p ++ [t]). split; [reflexivity|]. apply Forall_app. split; [exact H|constructor; [exact T|constructor]].
Qed.
Lemma constants_divide fuel : forall p quots rem out, constants p -> length quots = 3 -> divide_loop Release lex_cmp fuel (ex_w (-1) [0; 0] :: p) [ex_n1; ex_n2; ex_n3] quots rem <> Ok out.
Proof.
  induction fuel as [|n IH]; intros p quots rem out H L E; cbn [divide_loop] in E; rewrite constants_leading in E by (reflexivity || exact H); cbn [bind] in E; [discriminate|].
  destruct quots as [|q1 [|q2 [|q3 [|]]]]; try discriminate. apply bind_Ok in E as (o & Eo & E).
  change (try_divisors lex_cmp (ex_w (-1) [0; 0]) [ex_n1; ex_n2; ex_n3] [q1; q2; q3]) with
    (r <- (r <- (q' <- poly_add_term q3 (ex_w (-1) [0; 0]) ;; Ok (Some ([q'], ex_w (-1) [0; 0], ex_n3))) ;; Ok (match r with None => None | Some (qs, a, g') => Some (q2 :: qs, a, g') end)) ;;
     Ok (match r with None => None | Some (qs, a, g') => Some (q1 :: qs, a, g') end)) in Eo.
  apply bind_Ok in Eo as (o2 & Eo & Eo2). injection Eo2 as <-. apply bind_Ok in Eo as (o3 & Eo & Eo2). injection Eo2 as <-. apply bind_Ok in Eo as (q' & _ & Eo2). injection Eo2 as <-. cbv beta iota zeta in E.
  change (term_mul_poly Release (ex_w (-1) [0; 0]) ex_n3) with (Ok [ex_w (-1) []]) in E. cbn [bind] in E. apply bind_Ok in E as (f' & Ef & E).
  change (poly_sub (ex_w (-1) [0; 0] :: p) [ex_w (-1) []]) with (f <- poly_add_term (ex_w (-1) [0; 0] :: p) (ex_w 1 []) ;; Ok f) in Ef.
  apply bind_Ok in Ef as (f2 & Ef & Ef2). injection Ef2 as <-. destruct (constants_add (ex_w (-1) [0; 0]) p (ex_w 1 []) f2 eq_refl H eq_refl Ef) as (p' & -> & H').
  exact (IH p' [q1; q2; q'] rem out H' eq_refl E).
Qed.
Lemma ex_n_first n : divide Release lex_cmp (S n) [ex_w (-1) [0; 0]] [ex_n1; ex_n2] = Ok ([ex_w (-1) [0; 0]], [[]; []]).
Proof. destruct n; reflexivity. Qed.
Lemma ex_n_spoly : try_reduce Release lex_cmp ex_n2 ex_n1 = Ok (Some [ex_w (-1) [0; 0]]).
Proof. reflexivity. Qed.
Lemma ex_n_monic : poly_div_scalar Release [ex_w (-1) [0; 0]] (coef (ex_w (-1) [0; 0])) = Ok ex_n3.
Proof. reflexivity. Qed.
Lemma ex_n_extend n k out : extend_loop Release lex_cmp (S n) k [ex_n1; ex_n2] 0 <> Ok out.
Proof.
  intros E. destruct k as [|[|[|[|k]]]]; cbn [extend_loop length Nat.ltb Nat.leb seq extend_inner bind Nat.add] in E; try discriminate E.
  all: repeat (change (vget [ex_n1; ex_n2] 1) with (Ok ex_n2) in E; change (vget [ex_n1; ex_n2] 0) with (Ok ex_n1) in E; cbn [bind] in E).
  all: rewrite ex_n_spoly in E; cbn [bind unwrap] in E; rewrite ex_n_first in E; cbn [bind] in E.
  all: change (leading_coef lex_cmp [ex_w (-1) [0; 0]]) with (Ok (Some (coef (ex_w (-1) [0; 0])))) in E; cbn [bind] in E; rewrite ex_n_monic in E; cbn [bind app] in E.
  all: cbn [extend_loop length Nat.ltb Nat.leb seq extend_inner bind Nat.add] in E; try discriminate E.
  all: change (vget [ex_n1; ex_n2; ex_n3] 1) with (Ok ex_n2) in E; change (vget [ex_n1; ex_n2; ex_n3] 0) with (Ok ex_n1) in E; cbn [bind] in E.
  all: rewrite ex_n_spoly in E; cbn [bind unwrap] in E.
  all: apply bind_Ok in E as (o & E & _); apply bind_Ok in E as (rq & E & _); revert E; unfold divide; apply constants_divide; [constructor|reflexivity].
Qed.
Theorem C143_buchberger_returns_refuted : forall fuel out, buchberger_algorithm Release lex_cmp fuel [ex_n1; ex_n2] <> Ok out.
Proof.
  intros fuel out E. unfold buchberger_algorithm in E. apply bind_Ok in E as (g1 & E & _). unfold buchberger_extend in E.
  destruct fuel as [|n]; [discriminate E|]. revert E. apply ex_n_extend.
Qed.

(** the hypotheses hold: (x^200 + 2)(x^100 + 3) *)
Definition ex_wp : poly RR := [ex_t 1 1 [200]; ex_t 2 1 []].
Definition ex_wq : poly RR := [ex_t 1 1 [100]; ex_t 3 1 []].
Definition ex_wr : poly RR := [ex_t 1 1 [44]; ex_t 3 1 [200]; ex_t 2 1 [100]; ex_t 6 1 []].
Example C143_ex_mul : raw rat_spec ex_wp /\ raw rat_spec ex_wq /\ poly_mul Release ex_wp ex_wq = Ok ex_wr /\
  Forall (unit_root rat_spec) [mkrat (-1) 1 : RR] /\ fits [mkrat (-1) 1 : RR] ex_wr /\
  poly_eval ex_wp [mkrat (-1) 1 : RR] = Ok (mkrat 3 1) /\ poly_eval ex_wq [mkrat (-1) 1 : RR] = Ok (mkrat 4 1) /\ poly_eval ex_wr [mkrat (-1) 1 : RR] = Ok (mkrat 12 1).
Proof.
  split; [apply raw_of_clean; apply ex_clean; reflexivity|]. split; [apply raw_of_clean; apply ex_clean; reflexivity|]. split; [reflexivity|].
  split; [constructor; [apply Qc_is_canon; reflexivity|constructor]|]. split; [repeat constructor|]. repeat split; reflexivity.
Qed.
(** from x y^200 - y^3 and x - y^100 a release build computes y^44 - y^3 and x - y^18, where y^300 - y^3 and x - y^100 would be right; the zero
    (1, 1) of the generators is one of the result *)
Definition ex_w1 : poly RR := [ex_t 1 1 [1; 200]; ex_t (-1) 1 [0; 3]].
Definition ex_w2 : poly RR := [ex_t 1 1 [1]; ex_t (-1) 1 [0; 100]].
Definition ex_w3 : poly RR := [ex_t 1 1 [0; 44]; ex_t (-1) 1 [0; 3]].
Definition ex_w4 : poly RR := [ex_t 1 1 [1]; ex_t (-1) 1 [0; 18]].
Example C143_ex_buchberger : Forall (raw rat_spec) [ex_w1; ex_w2] /\ buchberger_algorithm Release lex_cmp 30 [ex_w1; ex_w2] = Ok [ex_w3; ex_w4] /\
  let x := [mkrat 1 1 : RR; mkrat 1 1 : RR] in
  Forall (unit_root rat_spec) x /\ Forall (fits x) [ex_w1; ex_w2; ex_w3; ex_w4] /\ poly_eval ex_w1 x = Ok (mkrat 0 1) /\ poly_eval ex_w2 x = Ok (mkrat 0 1) /\ poly_eval ex_w3 x = Ok (mkrat 0 1).
Proof.
  split; [repeat constructor; apply raw_of_clean; apply ex_clean; reflexivity|]. split; [reflexivity|]. cbv zeta.
  split; [repeat constructor; apply Qc_is_canon; reflexivity|]. split; [repeat constructor|]. repeat split; reflexivity.
Qed.
(** with checks the same operations panic *)
Example C143_ex_debug : poly_mul Debug ex_wp ex_wq = Panic Overflow /\ buchberger_algorithm Debug lex_cmp 30 [ex_w1; ex_w2] = Panic Overflow /\
  divide Debug (grlex_cmp Debug) 5 [ex_t 1 1 [2; 254]] [[ex_t 1 1 [2]; ex_t (-1) 1 [0; 1]]; [ex_t 1 1 [2; 254]; ex_t 1 1 [0; 255]]] = Panic Overflow.
Proof. repeat split; reflexivity. Qed.

Print Assumptions C143_mul.
Print Assumptions C143_division.
Print Assumptions C143_buchberger.
Print Assumptions C143_eval.
Print Assumptions C143_zeros.
Print Assumptions C143_mul_refuted.
Print Assumptions C143_division_refuted.
Print Assumptions C143_buchberger_refuted.
Print Assumptions C143_divide_ends_refuted.
Print Assumptions C143_buchberger_returns_refuted.
