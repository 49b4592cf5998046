(** * Properties C30-C37, C45, C67, C68: sorting, leading terms, division, lcm, S-polynomials.

    [O] is any comparison function with an [OrderSpec]: on canonical u8 multidegrees it either
    overflows (graded orders, total degree above 255) or agrees with a monomial order [olt OS].
    Lex, RevLex, GRLex and GRevLex are instances.  [clean] is [pwf], as in PropPoly. *)
From Verif Require Import Base BaseLemmas IntModel RatModel FieldIface RatProofs MDegModel OrdModel PolyModel CompModel
  MonoSpec MDegProofs OrdProofs PolySpec PolyProofs GroebnerSpec DivProofs DivSpec CompMono PropPoly.
From Coq Require Import Ring Field Setoid Morphisms Sorted Permutation.

Local Open Scope nat_scope.

Section PropDiv.
Context {F : FieldImpl} {K : MathField} (FS : FieldSpec F K) {O : ord_impl} (OS : OrderSpec O).
Add Field Kf8 : (kth K).
Add Ring Pr8 : (@poly_ring K) (setoid (@peq_equiv K) (@poly_ring_ext K)).
Notation term := (term F).
Notation poly := (poly F).
Notation val := (ip FS).
Notation clean := (pwf FS).
Notation okterm := (twf0 FS).
Notation lt := (olt OS).
Notation le := (mle lt).
Notation mon t := (canon (tdeg t)).
Notation LM := (is_lm lt).
Let laws := olaws _ OS.

(** ** C30 *)
Theorem C30_sort_terms : forall (f r : poly), Forall okterm f -> sort_terms O f = Ok r ->
  Permutation f r /\
  StronglySorted (fun s t : term => le (mon s) (mon t)) r /\
  (forall m, filter (fun t : term => if mono_dec (mon t) m then true else false) r =
             filter (fun t : term => if mono_dec (mon t) m then true else false) f) /\
  peq (val r) (val f).
Proof.
  intros f r W E. pose proof (sort_ok FS OS f W) as H. unfold sort_terms in E. rewrite E in H. simpl in H.
  destruct H as (P & S & Fl). split; [exact P|]. split; [exact S|]. split; [exact Fl|]. symmetry. apply ip_perm. exact P.
Qed.

Lemma sorted_unique (l : list term) : forall l', NoDup (map (fun t => mon t) l) -> Permutation l l' ->
  StronglySorted (fun s t : term => le (mon s) (mon t)) l -> StronglySorted (fun s t : term => le (mon s) (mon t)) l' -> l = l'.
Proof.
  induction l as [|x l IH]; intros l' ND P S S'.
  - apply Permutation_nil in P. auto.
  - destruct l' as [|x' l']; [apply Permutation_sym, Permutation_nil in P; discriminate|].
    assert (x = x').
    { inversion S as [|? ? _ Hx]; subst. inversion S' as [|? ? _ Hx']; subst. rewrite Forall_forall in Hx, Hx'.
      assert (I : In x (x' :: l')) by (eapply Permutation_in; [exact P|left; reflexivity]).
      assert (I' : In x' (x :: l)) by (eapply Permutation_in; [apply Permutation_sym; exact P|left; reflexivity]).
      destruct I as [->|I]; auto. destruct I' as [->|I']; auto. exfalso.
      assert (E : mon x = mon x') by (apply (mle_antisym lt laws); [apply Hx; exact I'|apply Hx'; exact I]).
      inversion ND as [|? ? N _]; subst. apply N. rewrite E. apply (in_map (fun t => mon t)). exact I'. }
    subst x'. f_equal. inversion ND; subst. inversion S; subst. inversion S'; subst. apply IH; auto.
    eapply Permutation_cons_inv; exact P.
Qed.

Theorem C30_order_independent : forall f f' r r' : poly, clean f -> Permutation f f' ->
  sort_terms O f = Ok r -> sort_terms O f' = Ok r' -> r = r'.
Proof.
  intros f f' r r' W P E E'. assert (W' : clean f') by (eapply pwf_perm; eassumption).
  destruct (C30_sort_terms f r (Forall_twf0 FS f (proj1 W)) E) as (P1 & S1 & _).
  destruct (C30_sort_terms f' r' (Forall_twf0 FS f' (proj1 W')) E') as (P2 & S2 & _).
  apply sorted_unique; auto.
  - pose proof (pwf_nodup FS f W) as N. rewrite ip_snd in N. eapply Permutation_NoDup; [apply Permutation_map; exact P1|exact N].
  - apply Permutation_trans with f; [apply Permutation_sym; exact P1|]. apply Permutation_trans with f'; assumption.
Qed.

Theorem C30_only_overflow : forall f : poly, Forall okterm f ->
  sort_terms O f = Panic Overflow \/ exists r, sort_terms O f = Ok r.
Proof.
  intros f W. pose proof (sort_ok FS OS f W) as H. apply safe_inv in H as [H|(r & H & _)]; [left; exact H|right; exists r; exact H].
Qed.

(** ** C31 *)
Theorem C31_leading_term : forall f : poly, Forall okterm f ->
  (forall o, leading_term O f = Ok o -> match o with
     | None => f = []
     | Some t => In t f /\ forall s, In s f -> le (mon s) (mon t)
     end) /\
  (leading_term O f = Panic Overflow \/ exists o, leading_term O f = Ok o).
Proof.
  intros f W. pose proof (max_by_ok FS OS f W) as H. apply safe_inv in H as [E|(o & E & H)]; rewrite E.
  - split; [intros o X; discriminate|left; reflexivity].
  - split; [|right; eauto]. intros o' X. injection X as <-. destruct o as [t|]; [|exact H].
    destruct H as (pre & post & -> & A & B). rewrite Forall_forall in A, B. split; [apply in_elt|].
    intros s I. apply in_app_or in I as [I|[<-|I]]; [auto|left; reflexivity|right; auto].
Qed.

(** ties (only possible on unclean input) go to the later term *)
Theorem C31_last_maximum : forall (f : poly) t, Forall okterm f -> leading_term O f = Ok (Some t) ->
  exists pre post, f = pre ++ t :: post /\ (forall s, In s pre -> le (mon s) (mon t)) /\ (forall s, In s post -> lt (mon s) (mon t)).
Proof.
  intros f t W E. pose proof (max_by_ok FS OS f W) as H. rewrite E in H. destruct H as (pre & post & -> & A & B).
  rewrite Forall_forall in A, B. exists pre, post. auto.
Qed.

Theorem C31_clean : forall f : poly, clean f ->
  (forall t, leading_term O f = Ok (Some t) ->
     (forall s, In s f -> s = t \/ lt (mon s) (mon t)) /\ LM (val f) (mon t) /\ coeff (val f) (mon t) = den FS (coef t) /\
     leading_coef O f = Ok (Some (coef t))) /\
  (leading_term O f = Ok None <-> f = []) /\ (leading_coef O f = Ok None <-> f = []).
Proof.
  intros f W. pose proof (leading_term_ok FS OS f W) as H. split; [|split].
  - intros t E. rewrite E in H. simpl in H. destruct H as (I & Wt & L & C).
    destruct (C31_last_maximum f t (Forall_twf0 FS f (proj1 W)) E) as (pre & post & Ef & A & B).
    split; [|split; [exact L|split; [exact C|unfold leading_coef; rewrite E; reflexivity]]].
    intros s Is. rewrite Ef in Is. apply in_app_or in Is as [Is|[->|Is]]; [|left; reflexivity|right; auto].
    destruct (A s Is) as [Em|]; [|right; assumption]. exfalso.
    pose proof (pwf_nodup FS f W) as N. rewrite ip_snd, Ef, map_app in N. simpl in N. apply NoDup_remove_2 in N.
    apply N. apply in_or_app. left. rewrite <- Em. apply (in_map (fun t => mon t)). exact Is.
  - split; [|intros ->; reflexivity]. intros E. rewrite E in H. exact H.
  - split; [|intros ->; reflexivity]. unfold leading_coef. destruct (leading_term O f) as [[t|]| |]; simpl; try discriminate. intros _. exact H.
Qed.

(** ** C32-C35, C67: the division algorithm *)
Lemma divide_run fuel (f : poly) divs r qs : clean f -> Forall clean divs -> divide Debug O fuel f divs = Ok (r, qs) ->
  clean r /\ Forall clean qs /\ div_ok OS (val f) (map val divs) (map val qs) (val r).
Proof.
  intros W Wd E.
  pose proof (evs_run _ _ (fun n n' H => divide_mono Debug O n n' f divs H) (divide_ok FS OS f divs W Wd) fuel (r, qs) E) as H.
  exact H.
Qed.

Theorem C32_division_identity : forall fuel (f : poly) divs r qs, clean f -> Forall clean divs ->
  divide Debug O fuel f divs = Ok (r, qs) ->
  length qs = length divs /\ clean r /\ Forall clean qs /\
  peq (val f) (padd (lincomb (map val qs) (map val divs)) (val r)).
Proof.
  intros fuel f divs r qs W Wd E. destruct (divide_run fuel f divs r qs W Wd E) as (Wr & Wq & D).
  split; [|split; [exact Wr|split; [exact Wq|]]].
  - pose proof (ds_len _ _ _ _ _ _ D) as L. rewrite !map_length in L. exact L.
  - pose proof (ds_eq _ _ _ _ _ _ D) as X. rewrite X. ring.
Qed.

Theorem C33_remainder_reduced : forall fuel (f : poly) divs r qs, clean f -> Forall clean divs ->
  divide Debug O fuel f divs = Ok (r, qs) ->
  forall t g l, In t r -> In g divs -> LM (val g) l -> ~ mdiv l (mon t).
Proof.
  intros fuel f divs r qs W Wd E t g l It Ig Lg. destruct (divide_run fuel f divs r qs W Wd E) as (Wr & Wq & D).
  apply (ds_red _ _ _ _ _ _ D (mon t)) with (g := val g); [|apply in_map; exact Ig|exact Lg].
  apply (pwf_support FS r _ Wr). exists t. auto.
Qed.

Theorem C34_degree_bound : forall fuel (f : poly) divs r qs B, clean f -> Forall clean divs ->
  divide Debug O fuel f divs = Ok (r, qs) ->
  (forall t, In t f -> le (mon t) B) ->
  (forall t, In t r -> le (mon t) B) /\
  (forall i q g m, nth_error qs i = Some q -> nth_error divs i = Some g -> coeff (pmul (val q) (val g)) m <> k0 -> le m B).
Proof.
  intros fuel f divs r qs B W Wd E HB. destruct (divide_run fuel f divs r qs W Wd E) as (Wr & Wq & D).
  assert (HB' : forall m, coeff (val f) m <> k0 -> le m B).
  { intros m N. apply (pwf_support FS f m W) in N as (t & I & <-). auto. }
  split.
  - intros t I. apply (ds_rbound _ _ _ _ _ _ D B HB'). apply (pwf_support FS r _ Wr). exists t. auto.
  - intros i q g m Hq Hg N. apply coeff_mul_inv in N as (a & b & -> & Na & Nb).
    destruct (zero_or_lm lt laws (val g)) as [Z|(l & Ll)]; [exfalso; apply Nb; rewrite Z; reflexivity|].
    apply (mle_trans lt laws _ (mmul a l)); [apply (mle_mul lt laws); apply Ll; exact Nb|].
    apply (ds_qbound _ _ _ _ _ _ D B HB' i (val q) (val g)); auto; rewrite nth_error_map; [rewrite Hq|rewrite Hg]; reflexivity.
Qed.

(** in terms of leading monomials *)
Theorem C34_leading : forall fuel (f : poly) divs r qs B, clean f -> Forall clean divs ->
  divide Debug O fuel f divs = Ok (r, qs) -> LM (val f) B ->
  (forall l, LM (val r) l -> le l B) /\
  (forall i q g l, nth_error qs i = Some q -> nth_error divs i = Some g -> LM (pmul (val q) (val g)) l -> le l B).
Proof.
  intros fuel f divs r qs B W Wd E HB.
  destruct (C34_degree_bound fuel f divs r qs B W Wd E) as [H1 H2].
  { intros t I. apply HB. apply (pwf_support FS f _ W). exists t. auto. }
  destruct (divide_run fuel f divs r qs W Wd E) as (Wr & _). split.
  - intros l [N _]. apply (pwf_support FS r l Wr) in N as (t & I & <-). auto.
  - intros i q g l Hq Hg [N _]. eapply H2; eassumption.
Qed.

Theorem C35_division_terminates : forall (f : poly) divs, clean f -> Forall clean divs ->
  exists N, (forall fuel, N <= fuel -> divide Debug O fuel f divs = Panic Overflow) \/
            (exists r qs, forall fuel, N <= fuel -> divide Debug O fuel f divs = Ok (r, qs)).
Proof.
  intros f divs W Wd. destruct (evs_term _ _ (divide_ok FS OS f divs W Wd)) as (N & [H|([r qs] & _ & H)]); exists N; eauto.
Qed.

(** the result satisfies the textbook specification of the division algorithm with the
    first-divisor rule, which determines quotients and remainder *)
Theorem C67_division_determined : forall fuel (f : poly) divs r qs, clean f -> Forall clean divs ->
  divide Debug O fuel f divs = Ok (r, qs) ->
  division lt (val f) (map val divs) (map val qs) (val r) /\
  forall qs' r', division lt (val f) (map val divs) qs' r' -> Forall2 peq (map val qs) qs' /\ peq (val r) r'.
Proof.
  intros fuel f divs r qs W Wd E. destruct (divide_run fuel f divs r qs W Wd E) as (Wr & Wq & D).
  assert (X : division lt (val f) (map val divs) (map val qs) (val r)).
  { constructor; [apply D| |apply D|split; apply D].
    pose proof (ds_eq _ _ _ _ _ _ D) as X. rewrite X. ring. }
  split; [exact X|]. intros qs' r' H. eapply (division_unique lt laws); eassumption.
Qed.

(** so the order in which terms are stored does not matter *)
Theorem C67_storage_order : forall fuel fuel' (f f' : poly) divs divs' r qs r' qs', clean f -> Forall clean divs ->
  Permutation f f' -> Forall2 (fun g g' => Permutation g g') divs divs' ->
  divide Debug O fuel f divs = Ok (r, qs) -> divide Debug O fuel' f' divs' = Ok (r', qs') ->
  peq (val r) (val r') /\ Forall2 (fun q q' => peq (val q) (val q')) qs qs'.
Proof.
  intros fuel fuel' f f' divs divs' r qs r' qs' W Wd P Pd E E'.
  assert (W' : clean f') by (eapply pwf_perm; eassumption).
  assert (Wd' : Forall clean divs').
  { clear - Wd Pd. induction Pd as [|g g' l l' H _ IH]; [constructor|]. inversion Wd; subst.
    constructor; [eapply pwf_perm; eassumption|auto]. }
  destruct (C67_division_determined fuel f divs r qs W Wd E) as [D U].
  destruct (C67_division_determined fuel' f' divs' r' qs' W' Wd' E') as [D' _].
  assert (Ef : peq (val f') (val f)) by (symmetry; apply ip_perm; exact P).
  assert (Eg : Forall2 peq (map val divs) (map val divs')).
  { clear - Pd. induction Pd as [|g g' l l' H _ IH]; simpl; constructor; [apply ip_perm; exact H|exact IH]. }
  assert (Tr : forall (gs gs' : list (spoly K)), Forall2 peq gs gs' -> forall i g', nth_error gs' i = Some g' -> exists g, nth_error gs i = Some g /\ peq g g').
  { induction 1 as [|g g' l l' H _ IH]; intros [|i] x X; simpl in *; try discriminate; [injection X as <-; eauto|auto]. }
  assert (Tr' : forall (gs gs' : list (spoly K)), Forall2 peq gs gs' -> forall i g, nth_error gs i = Some g -> exists g', nth_error gs' i = Some g' /\ peq g g').
  { induction 1 as [|g g' l l' H _ IH]; intros [|i] x X; simpl in *; try discriminate; [injection X as <-; eauto|auto]. }
  destruct (U (map val qs') (val r')) as [Uq Ur].
  - destruct D' as [L1 E1 R1 [A1 B1]]. constructor.
    + rewrite L1. symmetry. eapply Forall2_len. exact Eg.
    + rewrite <- Ef, E1. apply padd_proper; [|reflexivity].
      clear - Eg. revert Eg. generalize (map val qs') (map val divs) (map val divs'). intros q gs gs' H. revert q.
      induction H as [|g g' l l' H _ IH]; intros [|q0 q]; simpl; try reflexivity. rewrite IH, H. reflexivity.
    + intros m N g l Ig Lg. apply In_nth_error in Ig as (i & Ei). destruct (Tr' _ _ Eg i g Ei) as (g' & Ei' & X).
      rewrite X in Lg. apply (R1 m N g' l (nth_error_In _ _ Ei') Lg).
    + split.
      * intros i j q gi gj li lj a Hq Hi Hj Li Lj N Lt.
        destruct (Tr' _ _ Eg i gi Hi) as (gi' & Hi' & Xi). destruct (Tr' _ _ Eg j gj Hj) as (gj' & Hj' & Xj).
        rewrite Xi in Li. rewrite Xj in Lj. exact (A1 i j q gi' gj' li lj a Hq Hi' Hj' Li Lj N Lt).
      * intros i q g Hq Hg Z. destruct (Tr' _ _ Eg i g Hg) as (g' & Hg' & X). apply (B1 i q g' Hq Hg'). rewrite <- X. exact Z.
  - split; [exact Ur|]. clear - Uq. revert Uq. generalize qs'. induction qs as [|q qs IH]; intros [|q' l] H; simpl in H; inversion H; subst; constructor; auto.
Qed.

(** ** C36 *)
Theorem C36_monic_lcm : forall s t : term, twf FS s -> twf FS t ->
  let u := monic_lcm s t in
  coef u = f1 /\ mwf (tdeg u) /\ (forall i, expo (tdeg u) i = Nat.max (expo (tdeg s) i) (expo (tdeg t) i)) /\
  term_divides s u = true /\ term_divides t u = true /\
  (forall w, twf FS w -> term_divides s w = true -> term_divides t w = true -> term_divides u w = true).
Proof.
  intros s t Ws Wt u. destruct (monic_lcm_ok FS s t Ws Wt) as (Wu & C & M). fold u in Wu, C, M.
  assert (Dv : forall a b, twf FS a -> twf FS b -> (term_divides a b = true <-> mdiv (mon a) (mon b))).
  { intros a b Wa Wb. rewrite (term_divides_ok FS a b); [|apply twf_twf0; assumption..]. split; [tauto|]. intros H. split; [apply Wa|exact H]. }
  split; [exact C|]. split; [apply Wu|]. split.
  - intros i. rewrite <- !canon_exp, M, mlcm_exp. reflexivity.
  - rewrite (Dv s u Ws Wu), (Dv t u Wt Wu), M. split; [apply mdiv_lcm_l|]. split; [apply mdiv_lcm_r|].
    intros w Ww H1 H2. apply (Dv u w Wu Ww). rewrite M. apply mlcm_least; [apply (Dv s w Ws Ww); exact H1|apply (Dv t w Wt Ww); exact H2].
Qed.
Theorem C36_zero : forall s t : term, okterm s -> okterm t -> den FS (coef s) = k0 \/ den FS (coef t) = k0 ->
  monic_lcm s t = term_zero.
Proof. apply (monic_lcm_zero FS). Qed.

(** ** C37 *)
Theorem C37_s_polynomial : forall f g s : poly, clean f -> clean g -> try_reduce Debug O f g = Ok (Some s) ->
  clean s /\ exists l l', LM (val f) l /\ LM (val g) l' /\
    let M := mlcm l l' in
    peq (val s) (psub (tmul (kinv (coeff (val f) l)) (mquo M l) (val f)) (tmul (kinv (coeff (val g) l')) (mquo M l') (val g))) /\
    in_ideal [val f; val g] (val s) /\ (forall t, In t s -> lt (mon t) M).
Proof.
  intros f g s Wf Wg E. pose proof (try_reduce_ok FS OS f g Wf Wg) as H. rewrite E in H.
  destruct H as (Ws & l & l' & Lf & Lg & X). split; [exact Ws|]. exists l, l'. split; [exact Lf|]. split; [exact Lg|]. cbv zeta.
  split; [exact X|]. split.
  - rewrite X. apply spol_ideal; simpl; auto.
  - intros t I. eapply (spol_below lt laws); [exact Lf|exact Lg|]. rewrite <- X. apply (pwf_support FS s _ Ws). exists t. auto.
Qed.
Theorem C37_none : forall f g : poly, clean f -> clean g ->
  (try_reduce Debug O f g = Ok None -> f = [] \/ g = []) /\
  (f = [] -> try_reduce Debug O f g = Ok None) /\
  (g = [] -> try_reduce Debug O f g = Ok None \/ try_reduce Debug O f g = Panic Overflow) /\
  (try_reduce Debug O f g = Panic Overflow \/ exists o, try_reduce Debug O f g = Ok o).
Proof.
  intros f g Wf Wg. pose proof (try_reduce_ok FS OS f g Wf Wg) as H. split; [|split; [|split]].
  - intros E. rewrite E in H. exact H.
  - intros ->. reflexivity.
  - intros ->. unfold try_reduce. pose proof (leading_term_ok FS OS f Wf) as X. apply safe_inv in X as [E|(o & E & X)]; rewrite E; simpl; auto.
    destruct o; auto.
  - apply safe_inv in H as [E|(o & E & _)]; eauto.
Qed.

(** ** C45 *)
Theorem C45_membership : forall fuel (f : poly) divs r qs, clean f -> Forall clean divs -> groebner lt (map val divs) ->
  divide Debug O fuel f divs = Ok (r, qs) -> (r = [] <-> in_ideal (map val divs) (val f)).
Proof.
  intros fuel f divs r qs W Wd GB E. destruct (divide_run fuel f divs r qs W Wd E) as (Wr & Wq & D).
  pose proof (div_ok_ideal OS _ _ _ _ D) as I. rewrite (pwf_zero_iff FS r Wr). split.
  - intros Z. assert (X : peq (val f) (psub (val f) (val r))) by (rewrite Z; ring). rewrite X. exact I.
  - intros If. apply (reduced_ideal_zero lt laws (map val divs)); [exact GB| |apply D].
    assert (X : peq (val r) (psub (val f) (psub (val f) (val r)))) by ring. rewrite X. apply in_ideal_sub; assumption.
Qed.

Theorem C45_remainder_order_independent : forall fuel fuel' (f : poly) divs divs' r qs r' qs',
  clean f -> Forall clean divs -> groebner lt (map val divs) -> Permutation divs divs' ->
  divide Debug O fuel f divs = Ok (r, qs) -> divide Debug O fuel' f divs' = Ok (r', qs') -> peq (val r) (val r').
Proof.
  intros fuel fuel' f divs divs' r qs r' qs' W Wd GB P E E'.
  assert (Wd' : Forall clean divs') by (eapply Permutation_Forall; eassumption).
  destruct (divide_run fuel f divs r qs W Wd E) as (Wr & Wq & D).
  destruct (divide_run fuel' f divs' r' qs' W Wd' E') as (Wr' & Wq' & D').
  apply Permutation_sym in P. apply (Permutation_map val) in P.
  apply (remainder_unique lt laws (map val divs) (val f)); auto.
  - eapply div_ok_ideal; exact D.
  - apply (in_ideal_sub_ideal (map val divs')); [|eapply div_ok_ideal; exact D'].
    intros g I. apply in_ideal_gen. eapply Permutation_in; eassumption.
  - apply D.
  - intros m N g l Ig Lg. apply (ds_red _ _ _ _ _ _ D' m N g l); [|exact Lg].
    eapply Permutation_in; [apply Permutation_sym; exact P|exact Ig].
Qed.

(** ** C68 *)
Theorem C68_leading_term_multiplicative : forall p q r : poly, clean p -> clean q -> poly_mul Debug p q = Ok r ->
  (r = [] <-> p = [] \/ q = []) /\
  forall s t u, leading_term O p = Ok (Some s) -> leading_term O q = Ok (Some t) -> leading_term O r = Ok (Some u) ->
    mon u = mmul (mon s) (mon t) /\ den FS (coef u) = kmul (den FS (coef s)) (den FS (coef t)).
Proof.
  intros p q r Wp Wq E. pose proof (poly_mul_ok FS p q (Forall_twf0 FS p (proj1 Wp)) Wq) as H. rewrite E in H.
  destruct H as [Wr X]. split.
  - rewrite (pwf_zero_iff FS r Wr), (pwf_zero_iff FS p Wp), (pwf_zero_iff FS q Wq), X. split.
    + apply (pmul_zero_inv lt laws).
    + intros [Z|Z]; rewrite Z; ring.
  - intros s t u Es Et Eu.
    destruct (proj1 (C31_clean p Wp) s Es) as (_ & Ls & Cs & _).
    destruct (proj1 (C31_clean q Wq) t Et) as (_ & Lt & Ct & _).
    destruct (proj1 (C31_clean r Wr) u Eu) as (_ & Lu & Cu & _).
    pose proof (is_lm_mul lt laws _ _ _ _ Ls Lt) as Lm.
    assert (M : mon u = mmul (mon s) (mon t)).
    { eapply (is_lm_unique lt laws); [exact Lu|]. rewrite X. exact Lm. }
    split; [exact M|]. rewrite <- Cu, M, X, <- Cs, <- Ct. apply (coeff_mul_lm lt laws); assumption.
Qed.

End PropDiv.

(** comparisons never fail for Lex and RevLex, so neither do sorting and leading terms *)
Theorem C30_lex_revlex_total : forall (F : FieldImpl) (f : poly F),
  (exists r, sort_terms lex_cmp f = Ok r) /\ (exists r, sort_terms revlex_cmp f = Ok r) /\
  (exists o, leading_term lex_cmp f = Ok o) /\ (exists o, leading_term revlex_cmp f = Ok o).
Proof.
  intros F f.
  assert (S : forall O : ord_impl, (forall a b, exists c, O a b = Ok c) ->
     (exists r, sort_terms O f = Ok r) /\ exists o, leading_term O f = Ok o).
  { intros O H. split.
    - unfold sort_terms. induction f as [|x l (r & IH)]; [exists []; reflexivity|]. simpl. rewrite IH. simpl. clear IH.
      induction r as [|y r (z & IH)]; [eexists; reflexivity|]. simpl. unfold term_cmp at 1.
      destruct (H (tdeg x) (tdeg y)) as (c & ->). simpl. destruct c; try (eexists; reflexivity). rewrite IH. eexists; reflexivity.
    - unfold leading_term, max_by. destruct f as [|x l]; [eexists; reflexivity|].
      assert (X : forall l x, exists r, foldM (fun best y : term F => c <- term_cmp O best y ;; Ok (match c with Gt => best | _ => y end)) l x = Ok r).
      { clear - H. induction l as [|y l IH]; intros x; [eexists; reflexivity|]. simpl. unfold term_cmp at 1.
        destruct (H (tdeg x) (tdeg y)) as (c & ->). simpl. apply IH. }
      destruct (X l x) as (r & ->). eexists; reflexivity. }
  destruct (S lex_cmp) as [A B]; [intros a b; eexists; reflexivity|].
  destruct (S revlex_cmp) as [C D]; [intros a b; eexists; reflexivity|]. auto.
Qed.

(** ** Concrete cases over Rational *)
Definition ex_cleanb (p : poly (rat_impl Debug)) : bool :=
  forallb (fun t : PolyModel.term (rat_impl Debug) => let c : rat := coef t in
     ((0 <? denom c) && negb (numer c =? 0))%Z && (canonicalb (tdeg t) && forallb (fun x => x <=? 255) (tdeg t))) p &&
  (fix nd (l : list mdeg) := match l with [] => true | x :: l' =>
     negb (existsb (fun y => if list_eq_dec Nat.eq_dec x y then true else false) l') && nd l' end) (map tdeg p).
Lemma ex_clean p : ex_cleanb p = true -> pwf rat_spec p.
Proof.
  unfold ex_cleanb. intros H. apply andb_true_iff in H as [A B]. split.
  - rewrite forallb_forall in A. apply Forall_forall. intros t I. specialize (A t I). cbv zeta in A.
    apply andb_true_iff in A as [A1 A2]. apply andb_true_iff in A1 as [A0 A1]. destruct t as [[n d] e]. simpl in *.
    apply (ex_wf n d e); [lia| |apply mwf_b; exact A2]. intros ->. discriminate.
  - clear A. induction (map tdeg p) as [|x l IH]; [constructor|]. apply andb_true_iff in B as [B1 B2]. constructor; auto.
    intros I. apply negb_true_iff in B1. assert (X : existsb (fun y => if list_eq_dec Nat.eq_dec x y then true else false) l = true).
    { apply existsb_exists. exists x. split; auto. destruct (list_eq_dec Nat.eq_dec x x); congruence. }
    congruence.
Qed.

(** x^2y + xy^2 + y^2 divided by (xy - 1, y^2 - 1) in Lex: the textbook example *)
Definition ex_f : poly (rat_impl Debug) := [ex_t 1 1 [2; 1]; ex_t 1 1 [1; 2]; ex_t 1 1 [0; 2]].
Definition ex_g1 : poly (rat_impl Debug) := [ex_t 1 1 [1; 1]; ex_t (-1) 1 []].
Definition ex_g2 : poly (rat_impl Debug) := [ex_t 1 1 [0; 2]; ex_t (-1) 1 []].
Example ex_f_clean : pwf rat_spec ex_f. Proof. apply ex_clean. reflexivity. Qed.
Example ex_g_clean : Forall (pwf rat_spec) [ex_g1; ex_g2].
Proof. repeat (constructor; [apply ex_clean; reflexivity|]). constructor. Qed.

Example C30_ex : sort_terms (grlex_cmp Debug) [ex_t 1 1 [1; 1]; ex_t 5 1 []; ex_t 2 1 [0; 3]] =
  Ok [ex_t 5 1 []; ex_t 1 1 [1; 1]; ex_t 2 1 [0; 3]].
Proof. reflexivity. Qed.
Example C31_ex : leading_term lex_cmp ex_f = Ok (Some (ex_t 1 1 [2; 1])) /\
  leading_term revlex_cmp ex_f = Ok (Some (ex_t 1 1 [1; 2])) /\
  leading_term (grevlex_cmp Debug) ex_f = Ok (Some (ex_t 1 1 [2; 1])).
Proof. repeat split; reflexivity. Qed.
(** a graded comparison overflows on total degree 256 *)
Example C31_ex_overflow : leading_term (grlex_cmp Debug) [ex_t 1 1 [200; 56]; ex_t 1 1 []] = Panic Overflow.
Proof. reflexivity. Qed.
Example C32_ex : divide Debug lex_cmp 10 ex_f [ex_g1; ex_g2] =
  Ok ([ex_t 1 1 [1]; ex_t 1 1 [0; 1]; ex_t 1 1 []], [[ex_t 1 1 [1]; ex_t 1 1 [0; 1]]; [ex_t 1 1 []]]).
Proof. reflexivity. Qed.
(** the other divisor order gives another result: the first-divisor rule of C67 matters *)
Example C67_ex : divide Debug lex_cmp 10 ex_f [ex_g2; ex_g1] =
  Ok ([ex_t 2 1 [1]; ex_t 1 1 []], [[ex_t 1 1 [1]; ex_t 1 1 []]; [ex_t 1 1 [1]]]).
Proof. reflexivity. Qed.
(** a zero divisor is skipped *)
Example C32_ex_zero : divide Debug lex_cmp 10 ex_f [[]; ex_f] = Ok ([], [[]; [ex_t 1 1 []]]).
Proof. reflexivity. Qed.
Example C36_ex : monic_lcm (ex_t 3 1 [2; 0; 1]) (ex_t 5 2 [1; 4]) = ex_t 1 1 [2; 4; 1].
Proof. reflexivity. Qed.
Example C37_ex : try_reduce Debug (grlex_cmp Debug) [ex_t 1 1 [3]; ex_t (-2) 1 [1; 1]] [ex_t 1 1 [2; 1]; ex_t (-2) 1 [0; 2]; ex_t 1 1 [1]] =
  Ok (Some [ex_t (-1) 1 [2]]).
Proof. reflexivity. Qed.
Example C68_ex : exists r, poly_mul Debug ex_g1 ex_f = Ok r /\ leading_term lex_cmp r = Ok (Some (ex_t 1 1 [3; 2])).
Proof. eexists. split; reflexivity. Qed.

Print Assumptions C30_sort_terms.
Print Assumptions C30_order_independent.
Print Assumptions C30_only_overflow.
Print Assumptions C30_lex_revlex_total.
Print Assumptions C31_leading_term.
Print Assumptions C31_last_maximum.
Print Assumptions C31_clean.
Print Assumptions C32_division_identity.
Print Assumptions C33_remainder_reduced.
Print Assumptions C34_degree_bound.
Print Assumptions C34_leading.
Print Assumptions C35_division_terminates.
Print Assumptions C36_monic_lcm.
Print Assumptions C36_zero.
Print Assumptions C37_s_polynomial.
Print Assumptions C37_none.
Print Assumptions C45_membership.
Print Assumptions C45_remainder_order_independent.
Print Assumptions C67_division_determined.
Print Assumptions C67_storage_order.
Print Assumptions C68_leading_term_multiplicative.
