(** * Properties C92-C98: what the division and Buchberger's algorithm are for.

    Normal forms modulo an ideal, zero sets, the unit ideal, elimination with Lex and RevLex,
    variables of the result, comparison of ideals, greatest common divisors in one variable.
    [coeff (val f) m] is the coefficient of the monomial [m] in [f]; [in_ideal G f] says that [f] is
    a combination of [G] with polynomial coefficients. *)
From Verif Require Import Base BaseLemmas IntModel RatModel FieldIface RatProofs MDegModel OrdModel PolyModel CompModel
  MonoSpec MDegProofs OrdProofs PolySpec PolyProofs GroebnerSpec DivProofs DivSpec GbProofs CompMono PropPoly PropDiv PropGb IdealSpec.
From Coq Require Import Ring Field Setoid Morphisms Permutation.

Local Open Scope nat_scope.

Section PropIdeal.
Context {F : FieldImpl} {K : MathField} (FS : FieldSpec F K) {O : ord_impl} (OS : OrderSpec O).
Add Field Kf20 : (kth K).
Add Ring Pr20 : (@poly_ring K) (setoid (@peq_equiv K) (@poly_ring_ext K)).
Notation poly := (poly F).
Notation val := (ip FS).
Notation clean := (pwf FS).
Notation lt := (olt OS).
Notation mon t := (canon (tdeg t)).
Notation LM := (is_lm lt).
Notation nonzero := (fun g : poly => g <> []).
Notation same f g := (forall m, coeff (val f) m = coeff (val g) m).
Let laws := olaws _ OS.

Lemma same_peq (f g : poly) : same f g <-> peq (val f) (val g).
Proof. split; [intros H; apply peq_coeff; exact H|intros H m; rewrite H; reflexivity]. Qed.
Lemma divide_nf fuel (f : poly) divs r qs : clean f -> Forall clean divs -> divide Debug O fuel f divs = Ok (r, qs) ->
  clean r /\ in_ideal (map val divs) (psub (val f) (val r)) /\ reduced lt (map val divs) (val r).
Proof.
  intros W Wd E. destruct (divide_run FS OS fuel f divs r qs W Wd E) as (Wr & _ & D).
  split; [exact Wr|]. split; [eapply div_ok_ideal; exact D|apply D].
Qed.
Lemma reduced_add G (r r' : spoly K) : reduced lt G r -> reduced lt G r' -> reduced lt G (padd r r').
Proof.
  intros H H' m N. rewrite coeff_add in N. destruct (kdec (coeff r m) k0) as [Z|Y]; [|exact (H m Y)].
  apply H'. intros Z'. apply N. rewrite Z, Z'. ring.
Qed.
Lemma reduced_scale G c (r : spoly K) : reduced lt G r -> reduced lt G (pscale c r).
Proof.
  intros H m N. apply H. rewrite coeff_scale in N. intros Z. apply N. rewrite Z. ring.
Qed.

(** ** C92: normal forms *)
Theorem C92_congruence : forall fuel fuel' (f g : poly) divs rf qf rg qg, clean f -> clean g -> Forall clean divs ->
  groebner lt (map val divs) -> divide Debug O fuel f divs = Ok (rf, qf) -> divide Debug O fuel' g divs = Ok (rg, qg) ->
  (same rf rg <-> in_ideal (map val divs) (psub (val f) (val g))).
Proof.
  intros fuel fuel' f g divs rf qf rg qg Wf Wg Wd GB Ef Eg. rewrite same_peq.
  destruct (divide_nf _ _ _ _ _ Wf Wd Ef) as (_ & If & Rf). destruct (divide_nf _ _ _ _ _ Wg Wd Eg) as (_ & Ig & Rg). split.
  - intros E. assert (X : peq (psub (val f) (val g)) (psub (psub (val f) (val rf)) (psub (val g) (val rg)))) by (rewrite E; ring).
    rewrite X. apply in_ideal_sub; assumption.
  - intros I. apply (remainder_unique lt laws (map val divs) (val f)); auto.
    assert (X : peq (psub (val f) (val rg)) (padd (psub (val f) (val g)) (psub (val g) (val rg)))) by ring.
    rewrite X. apply in_ideal_add; assumption.
Qed.

(** for any divisors *)
Theorem C92_idempotent : forall fuel fuel' (f : poly) divs r qs r' qs', clean f -> Forall clean divs ->
  divide Debug O fuel f divs = Ok (r, qs) -> divide Debug O fuel' r divs = Ok (r', qs') ->
  same r' r /\ Forall (fun q => q = []) qs'.
Proof.
  intros fuel fuel' f divs r qs r' qs' W Wd E E'.
  destruct (divide_nf _ _ _ _ _ W Wd E) as (Wr & _ & R).
  destruct (C67_division_determined FS OS fuel' r divs r' qs' Wr Wd E') as [_ U].
  destruct (C32_division_identity FS OS fuel' r divs r' qs' Wr Wd E') as (_ & _ & Wq & _).
  destruct (U (map (fun _ => pzero) divs) (val r)) as [Uq Ur].
  - constructor.
    + rewrite !map_length. reflexivity.
    + assert (X : peq (lincomb (map (fun _ => pzero) divs) (map val divs)) pzero).
      { clear. induction divs as [|g l IH]; simpl; [reflexivity|]. rewrite IH. ring. }
      rewrite X. ring.
    + exact R.
    + split.
      * intros i j q gi gj li lj a Hq _ _ _ _ N. exfalso. apply N. rewrite nth_error_map in Hq.
        destruct (nth_error divs i); [|discriminate]. injection Hq as <-. reflexivity.
      * intros i q g Hq _ _. rewrite nth_error_map in Hq. destruct (nth_error divs i); [|discriminate]. injection Hq as <-. reflexivity.
  - split; [apply same_peq; exact Ur|]. clear - Uq Wq. revert divs Uq. induction Wq as [|q l Wq _ IH]; intros [|d divs] U; simpl in U; inversion U; subst; constructor.
    + apply (pwf_zero_iff FS q Wq). assumption.
    + eapply IH. eassumption.
Qed.

Theorem C92_linear : forall (f g : poly) divs, clean f -> clean g -> Forall clean divs -> groebner lt (map val divs) ->
  forall n1 n2 n3 rf qf rg qg, divide Debug O n1 f divs = Ok (rf, qf) -> divide Debug O n2 g divs = Ok (rg, qg) ->
  (forall s rs qs t, poly_add f g = Ok s -> divide Debug O n3 s divs = Ok (rs, qs) -> poly_add rf rg = Ok t -> same rs t) /\
  (forall s rs qs t, poly_sub f g = Ok s -> divide Debug O n3 s divs = Ok (rs, qs) -> poly_sub rf rg = Ok t -> same rs t) /\
  (forall c s rs qs t, fwf FS c -> poly_scale Debug f c = Ok s -> divide Debug O n3 s divs = Ok (rs, qs) -> poly_scale Debug rf c = Ok t -> same rs t).
Proof.
  intros f g divs Wf Wg Wd GB n1 n2 n3 rf qf rg qg Ef Eg.
  destruct (divide_nf _ _ _ _ _ Wf Wd Ef) as (Wrf & If & Rf). destruct (divide_nf _ _ _ _ _ Wg Wd Eg) as (Wrg & Ig & Rg).
  split; [|split].
  - intros s rs qs t Es Ers Et. apply same_peq.
    destruct (safe_val _ _ _ (poly_add_ok FS f g Wf (clean_f0 FS g Wg)) Es) as [Ws Xs].
    destruct (safe_val _ _ _ (poly_add_ok FS rf rg Wrf (clean_f0 FS rg Wrg)) Et) as [Wt Xt].
    destruct (divide_nf _ _ _ _ _ Ws Wd Ers) as (Wrs & Is & Rs).
    apply (remainder_unique lt laws (map val divs) (val s)); auto.
    + assert (X : peq (psub (val s) (val t)) (padd (psub (val f) (val rf)) (psub (val g) (val rg)))) by (rewrite Xs, Xt; ring).
      rewrite X. apply in_ideal_add; assumption.
    + eapply reduced_eq; [symmetry; exact Xt|]. apply reduced_add; assumption.
  - intros s rs qs t Es Ers Et. apply same_peq.
    destruct (safe_val _ _ _ (poly_sub_ok FS f g Wf (clean_f0 FS g Wg)) Es) as [Ws Xs].
    destruct (safe_val _ _ _ (poly_sub_ok FS rf rg Wrf (clean_f0 FS rg Wrg)) Et) as [Wt Xt].
    destruct (divide_nf _ _ _ _ _ Ws Wd Ers) as (Wrs & Is & Rs).
    apply (remainder_unique lt laws (map val divs) (val s)); auto.
    + assert (X : peq (psub (val s) (val t)) (psub (psub (val f) (val rf)) (psub (val g) (val rg)))) by (rewrite Xs, Xt; ring).
      rewrite X. apply in_ideal_sub; assumption.
    + eapply reduced_eq; [symmetry; exact Xt|]. apply reduced_sub; assumption.
  - intros c s rs qs t Wc Es Ers Et. apply same_peq.
    destruct (safe_val _ _ _ (poly_scale_ok FS f c (clean_f0 FS f Wf) Wc) Es) as (_ & Ws & Xs).
    destruct (safe_val _ _ _ (poly_scale_ok FS rf c (clean_f0 FS rf Wrf) Wc) Et) as (_ & Wt & Xt).
    destruct (divide_nf _ _ _ _ _ (Ws Wf) Wd Ers) as (Wrs & Is & Rs).
    apply (remainder_unique lt laws (map val divs) (val s)); auto.
    + assert (X : peq (psub (val s) (val t)) (pscale (den FS c) (psub (val f) (val rf)))).
      { rewrite Xs, Xt. unfold pscale. rewrite !tmul_pmul. ring. }
      rewrite X. apply in_ideal_tmul. assumption.
    + eapply reduced_eq; [symmetry; exact Xt|]. apply reduced_scale; assumption.
Qed.

Theorem C92_multiplicative : forall (f g : poly) divs, clean f -> clean g -> Forall clean divs -> groebner lt (map val divs) ->
  forall n1 n2 n3 n4 rf qf rg qg p q rp qp rq qq,
  divide Debug O n1 f divs = Ok (rf, qf) -> divide Debug O n2 g divs = Ok (rg, qg) ->
  poly_mul Debug f g = Ok p -> divide Debug O n3 p divs = Ok (rp, qp) ->
  poly_mul Debug rf rg = Ok q -> divide Debug O n4 q divs = Ok (rq, qq) -> same rp rq.
Proof.
  intros f g divs Wf Wg Wd GB n1 n2 n3 n4 rf qf rg qg p q rp qp rq qq Ef Eg Ep Erp Eq Erq.
  destruct (divide_nf _ _ _ _ _ Wf Wd Ef) as (Wrf & If & Rf). destruct (divide_nf _ _ _ _ _ Wg Wd Eg) as (Wrg & Ig & Rg).
  destruct (safe_val _ _ _ (poly_mul_ok FS f g (clean_f0 FS f Wf) Wg) Ep) as [Wp Xp].
  destruct (safe_val _ _ _ (poly_mul_ok FS rf rg (clean_f0 FS rf Wrf) Wrg) Eq) as [Wq Xq].
  apply (C92_congruence n3 n4 p q divs rp qp rq qq); auto.
  assert (X : peq (psub (val p) (val q)) (padd (pmul (val g) (psub (val f) (val rf))) (pmul (val rf) (psub (val g) (val rg))))) by (rewrite Xp, Xq; ring).
  rewrite X. apply in_ideal_add; apply in_ideal_mul; assumption.
Qed.

(** ** C93: zero sets *)
Notation vanishes x := (fun g : poly => exists v, poly_eval g x = Ok v /\ den FS v = k0).
Lemma vanish_ideal x (G : list poly) f : Forall (fwf FS) x -> Forall clean G -> Forall (vanishes x) G ->
  in_ideal (map val G) f -> peval (pt FS x) f = k0.
Proof.
  intros Wx WG V. apply peval_ideal. intros g I. apply in_map_iff in I as (g0 & <- & I).
  rewrite Forall_forall in WG, V. destruct (V g0 I) as (v & E & Z). rewrite <- Z. symmetry. apply (eval_val FS g0 x v); auto.
Qed.

Theorem C93_zero_set : forall fuel (gens out : list poly) x, Forall clean gens -> Forall nonzero gens -> Forall (fwf FS) x ->
  buchberger_algorithm Debug O fuel gens = Ok out ->
  (Forall (vanishes x) gens -> forall g v, In g out -> poly_eval g x = Ok v -> den FS v = k0) /\
  (Forall (vanishes x) out -> forall g v, In g gens -> poly_eval g x = Ok v -> den FS v = k0).
Proof.
  intros fuel gens out x W NZ Wx E. destruct (C39_same_ideal FS OS fuel gens out W NZ E) as [Wo SI]. split.
  - intros V g v I Ev. rewrite (eval_val FS g x v); auto; [|rewrite Forall_forall in Wo; auto].
    apply (vanish_ideal x gens); auto. apply SI. apply in_ideal_gen. apply in_map. exact I.
  - intros V g v I Ev. rewrite (eval_val FS g x v); auto; [|rewrite Forall_forall in W; auto].
    apply (vanish_ideal x out); auto. apply SI. apply in_ideal_gen. apply in_map. exact I.
Qed.

(** on the common zeros of the divisors a polynomial and its remainder agree *)
Theorem C93_remainder_value : forall fuel (f : poly) divs r qs x vf vr, clean f -> Forall clean divs -> Forall (fwf FS) x ->
  divide Debug O fuel f divs = Ok (r, qs) -> Forall (vanishes x) divs ->
  poly_eval f x = Ok vf -> poly_eval r x = Ok vr -> den FS vf = den FS vr.
Proof.
  intros fuel f divs r qs x vf vr W Wd Wx E V Ef Er.
  destruct (divide_nf _ _ _ _ _ W Wd E) as (Wr & I & _).
  rewrite (eval_val FS f x vf W Wx Ef), (eval_val FS r x vr Wr Wx Er).
  pose proof (vanish_ideal x divs _ Wx Wd V I) as Z. unfold psub in Z. rewrite peval_add in Z. unfold peval at 2 in Z.
  rewrite ev_popp in Z. fold (peval (pt FS x) (val r)) in Z.
  transitivity (kadd (kadd (peval (pt FS x) (val f)) (kopp (peval (pt FS x) (val r)))) (peval (pt FS x) (val r))); [ring|].
  rewrite Z. ring.
Qed.

(** ** C94: the unit ideal *)
Notation constant := (fun g : poly => exists t, g = [t] /\ tdeg t = []).
Lemma lm_pone : LM (@pone K) mone.
Proof.
  change (@pone K) with (@pterm K k1 mone). split.
  - rewrite coeff_pterm. destruct (mono_dec mone mone); [|congruence]. apply (F_1_neq_0 (kth K)).
  - intros m N. rewrite coeff_pterm in N. destruct (mono_dec mone m) as [<-|]; [left; reflexivity|congruence].
Qed.
Lemma mdiv_mone l : mdiv l mone -> l = mone.
Proof. intros D. apply mono_ext. intros i. specialize (D i). rewrite mone_exp in *. lia. Qed.
Lemma constant_lm (g : poly) : clean g -> LM (val g) mone -> constant g.
Proof.
  intros W [N H]. assert (X : forall t, In t g -> tdeg t = []).
  { intros t I. pose proof (proj2 (pwf_support FS g (mon t) W) (ex_intro _ t (conj I eq_refl))) as C.
    assert (M : mon t = mone).
    { destruct (H _ C) as [E|L]; [exact E|]. exfalso. destruct (mono_dec (mon t) mone) as [E|Ne].
      - rewrite E in L. exact (lt_irrefl lt laws _ L).
      - apply (lt_irrefl lt laws mone). eapply (lt_trans lt laws); [apply (lt_one lt laws); exact Ne|exact L]. }
    destruct W as [W _]. rewrite Forall_forall in W. destruct (W t I) as (_ & _ & C' & _).
    apply canon_inj; [exact C'|discriminate|exact M]. }
  destruct g as [|t [|s g]].
  - exfalso. apply N. reflexivity.
  - exists t. split; [reflexivity|]. apply X. left. reflexivity.
  - exfalso. destruct W as [_ D]. simpl in D. inversion D as [|? ? Nin _]; subst. apply Nin. left.
    rewrite (X t), (X s) by (simpl; auto). reflexivity.
Qed.
Lemma constant_pone (g : poly) : clean g -> constant g -> in_ideal [val g] pone.
Proof.
  intros W (t & -> & D). destruct W as [W _]. inversion W as [|? ? (_ & N & _) _]; subst.
  assert (E : peq pone (tmul (kinv (den FS (coef t))) mone (val [t]))).
  { intros phi. rewrite ev_tmul, ip_single. unfold it. rewrite D. simpl. rewrite mmul_1_l. change (canon []) with mone. field. exact N. }
  rewrite E. apply in_ideal_tmul. apply in_ideal_gen. left. reflexivity.
Qed.

Theorem C94_unit_ideal : forall fuel (gens out : list poly), Forall clean gens -> Forall nonzero gens ->
  buchberger_algorithm Debug O fuel gens = Ok out ->
  (in_ideal (map val gens) pone <-> exists g, In g out /\ constant g) /\
  (in_ideal (map val gens) pone <-> exists t, out = [[t]] /\ tdeg t = []).
Proof.
  intros fuel gens out W NZ E. destruct (C39_same_ideal FS OS fuel gens out W NZ E) as [Wo SI].
  assert (A : in_ideal (map val gens) pone -> exists g, In g out /\ LM (val g) mone /\ constant g).
  { intros I. destruct (C40_groebner_basis FS OS fuel gens out W NZ E pone mone I lm_pone) as (g & l & Ig & Lg & D).
    apply mdiv_mone in D as ->. exists g. split; [exact Ig|]. split; [exact Lg|]. apply constant_lm; [|exact Lg].
    rewrite Forall_forall in Wo. auto. }
  assert (B : (exists g, In g out /\ constant g) -> in_ideal (map val gens) pone).
  { intros (g & I & C). apply SI. rewrite Forall_forall in Wo. apply (in_ideal_sub_ideal [val g]).
    - intros h [<-|[]]. apply in_ideal_gen. apply in_map. exact I.
    - apply constant_pone; auto. }
  split; split.
  - intros I. destruct (A I) as (g & Ig & _ & C). eauto.
  - exact B.
  - intros I. destruct (A I) as (g & Ig & Lg & (t & -> & D)). exists t. split; [|exact D].
    apply In_nth_error in Ig as (i & Ei).
    assert (H : forall j gj, nth_error out j = Some gj -> j = i).
    { intros j gj Ej. destruct (Nat.eq_dec j i) as [|N]; [assumption|exfalso].
      assert (Wj : clean gj) by (rewrite Forall_forall in Wo; apply Wo; eapply nth_error_In; exact Ej).
      destruct (C41_inter_reduced FS OS fuel gens out W NZ E) as [NZo _]. rewrite Forall_forall in NZo.
      destruct (pwf_lm_exists FS OS gj Wj (NZo gj (nth_error_In _ _ Ej))) as (l & Ll).
      apply (C41_minimal FS OS fuel gens out W NZ E j i gj [t] l mone N Ej Ei Ll Lg). apply mdiv_one. }
    destruct out as [|a [|b out]].
    + destruct i; discriminate.
    + destruct i as [|i]; [cbn in Ei; injection Ei as ->; reflexivity|]. destruct i; discriminate.
    + exfalso. pose proof (H 0 a eq_refl). pose proof (H 1 b eq_refl). lia.
  - intros (t & -> & D). apply B. exists [t]. split; [left; reflexivity|]. exists t. auto.
Qed.

(** a point annihilating the generators rules that out *)
Theorem C94_no_common_zero : forall fuel (gens out : list poly) x, Forall clean gens -> Forall nonzero gens -> Forall (fwf FS) x ->
  buchberger_algorithm Debug O fuel gens = Ok out -> Forall (vanishes x) gens ->
  forall g, In g out -> ~ constant g.
Proof.
  intros fuel gens out x W NZ Wx E V g I C.
  assert (U : in_ideal (map val gens) pone) by (apply (proj1 (C94_unit_ideal fuel gens out W NZ E)); exists g; auto).
  pose proof (vanish_ideal x gens pone Wx W V U) as Z. apply (F_1_neq_0 (kth K)). rewrite <- Z.
  unfold peval, pone. simpl. rewrite (proj1 (mval_multiplicative (pt FS x))). ring.
Qed.

(** ** C96: the result involves no new variables *)
Theorem C96_variables : forall fuel (gens out : list poly) i, Forall clean gens -> Forall nonzero gens ->
  buchberger_algorithm Debug O fuel gens = Ok out ->
  (forall g t, In g gens -> In t g -> expo (tdeg t) i = 0) ->
  forall g t, In g out -> In t g -> expo (tdeg t) i = 0.
Proof.
  intros fuel gens out i W NZ E H g t I It. destruct (algorithm_run FS OS fuel gens out W NZ E) as (Wo & SI & GB & R).
  assert (X : without i (val g)).
  { apply (reduced_variables i lt laws (map val gens) (map val out)); auto.
    - intros h Ih. apply in_map_iff in Ih as (h0 & <- & Ih). intros m N. rewrite Forall_forall in W.
      apply (pwf_support FS h0 m (W h0 Ih)) in N as (s & Is & <-). rewrite canon_exp. eapply H; eassumption.
    - apply in_map. exact I. }
  rewrite <- canon_exp. apply X. rewrite Forall_forall in Wo. apply (pwf_support FS g _ (Wo g I)). eauto.
Qed.

(** so every point at which the generators can be evaluated is long enough for the result *)
Theorem C96_evaluable : forall fuel (gens out : list poly) x, Forall clean gens -> Forall nonzero gens -> Forall (fwf FS) x ->
  buchberger_algorithm Debug O fuel gens = Ok out ->
  Forall (fun g => exists v, poly_eval g x = Ok v) gens ->
  forall g, In g out -> poly_eval g x = Panic Overflow \/ exists v, poly_eval g x = Ok v.
Proof.
  intros fuel gens out x W NZ Wx E V g I.
  assert (Wg : clean g) by (destruct (C39_same_ideal FS OS fuel gens out W NZ E) as [Wo _]; rewrite Forall_forall in Wo; auto).
  assert (B : Forall (fun t => length (tdeg t) <= length x) g).
  { apply Forall_forall. intros t It. destruct Wg as [Wg _]. rewrite Forall_forall in Wg. destruct (Wg t It) as (_ & _ & C & _).
    apply (canonical_length _ _ C). intros i Hi. apply (C96_variables fuel gens out i W NZ E) with (g := g); auto.
    intros h s Ih Is. rewrite Forall_forall in V, W. destruct (V h Ih) as (v & Ev). apply expo_over.
    destruct (le_lt_dec (length (tdeg s)) (length x)) as [L|L]; [lia|exfalso].
    destruct (proj2 (C27_eval_value FS h x (W h Ih) Wx)) as [Y|Y]; try congruence.
    apply Exists_exists. exists s. auto. }
  pose proof (proj1 (C27_eval_value FS g x Wg Wx) B) as S. apply safe_inv in S as [S|(v & S & _)]; eauto.
Qed.

(** ** C97: comparing ideals *)
Theorem C97_containment : forall fuel (gens gens' out : list poly), Forall clean gens -> Forall clean gens' -> Forall nonzero gens ->
  buchberger_algorithm Debug O fuel gens = Ok out ->
  (Forall (fun g => exists n qs, divide Debug O n g out = Ok ([], qs)) gens' ->
     forall f, in_ideal (map val gens') f -> in_ideal (map val gens) f) /\
  ((forall f, in_ideal (map val gens') f -> in_ideal (map val gens) f) ->
     forall g n r qs, In g gens' -> divide Debug O n g out = Ok (r, qs) -> r = []).
Proof.
  intros fuel gens gens' out W W' NZ E. destruct (algorithm_run FS OS fuel gens out W NZ E) as (Wo & SI & GB & _).
  rewrite Forall_forall in W'. split.
  - intros H. apply in_ideal_sub_ideal. intros g I. apply in_map_iff in I as (g0 & <- & I). rewrite Forall_forall in H.
    destruct (H g0 I) as (n & qs & D). apply SI. apply (C45_membership FS OS n g0 out [] qs); auto.
  - intros H g n r qs I D. apply (C45_membership FS OS n g out r qs); auto. apply SI. apply H. apply in_ideal_gen. apply in_map. exact I.
Qed.

Theorem C97_equality : forall fuel fuel' (gens gens' out out' : list poly),
  Forall clean gens -> Forall nonzero gens -> Forall clean gens' -> Forall nonzero gens' ->
  buchberger_algorithm Debug O fuel gens = Ok out -> buchberger_algorithm Debug O fuel' gens' = Ok out' ->
  ((forall f, in_ideal (map val gens) f <-> in_ideal (map val gens') f) <->
   exists out'', Permutation out' out'' /\
     Forall2 (fun g h : poly => exists c : K, c <> k0 /\ forall m, coeff (val g) m = kmul c (coeff (val h) m)) out out'').
Proof.
  intros fuel fuel' gens gens' out out' W NZ W' NZ' E E'. split.
  - intros SI. exact (C42_unique_up_to_scaling FS OS fuel fuel' gens gens' out out' W NZ W' NZ' SI E E').
  - intros (o & P & H). destruct (C39_same_ideal FS OS fuel gens out W NZ E) as [Wo S].
    destruct (C39_same_ideal FS OS fuel' gens' out' W' NZ' E') as [Wo' S'].
    assert (A : forall (l l' : list poly), Forall2 (fun g h : poly => exists c : K, c <> k0 /\ forall m, coeff (val g) m = kmul c (coeff (val h) m)) l l' ->
       forall f, in_ideal (map val l) f <-> in_ideal (map val l') f).
    { intros l l' F2. assert (T : forall g h : poly, (exists c : K, c <> k0 /\ forall m, coeff (val g) m = kmul c (coeff (val h) m)) ->
         exists c, peq (val g) (pscale c (val h)) /\ peq (val h) (pscale (kinv c) (val g))).
      { intros g h (c & N & X). exists c. split; apply peq_coeff; intros m; rewrite coeff_scale, X; [ring|field; exact N]. }
      intros f. split; apply in_ideal_sub_ideal; intros g I; apply in_map_iff in I as (g0 & <- & I).
      - apply In_nth_error in I as (i & Ei). destruct (Forall2_nth _ _ _ _ _ F2 Ei) as (h & Eh & R). destruct (T _ _ R) as (c & -> & _).
        apply in_ideal_tmul. apply in_ideal_gen. apply in_map. eapply nth_error_In. exact Eh.
      - apply In_nth_error in I as (i & Ei). destruct (Forall2_nth' _ _ _ _ _ F2 Ei) as (h & Eh & R). destruct (T _ _ R) as (c & _ & ->).
        apply in_ideal_tmul. apply in_ideal_gen. apply in_map. eapply nth_error_In. exact Eh. }
    assert (B : forall f, in_ideal (map val out') f <-> in_ideal (map val o) f).
    { intros f. split; apply in_ideal_incl; intros g I; apply in_map_iff in I as (g0 & <- & I); apply in_map;
        [apply (Permutation_in _ P)|apply (Permutation_in _ (Permutation_sym P))]; exact I. }
    intros f. rewrite <- S, (A out o H), <- B, S'. reflexivity.
Qed.

(** ** C98: in one variable the result is the greatest common divisor *)
Theorem C98_gcd : forall fuel (gens out : list poly), Forall clean gens -> Forall nonzero gens -> gens <> [] ->
  (forall g t, In g gens -> In t g -> length (tdeg t) <= 1) ->
  buchberger_algorithm Debug O fuel gens = Ok out ->
  exists g, out = [g] /\ g <> [] /\ in_ideal (map val gens) (val g) /\
    (forall f, In f gens -> exists q, peq (val f) (pmul q (val g))) /\
    (forall h, (forall f, In f gens -> exists q, peq (val f) (pmul q h)) -> exists q, peq (val g) (pmul q h)).
Proof.
  intros fuel gens out W NZ Ne One E.
  destruct (C39_same_ideal FS OS fuel gens out W NZ E) as [Wo SI].
  destruct (C41_inter_reduced FS OS fuel gens out W NZ E) as [NZo _].
  assert (V : forall g l, In g out -> LM (val g) l -> forall i, 1 <= i -> mexp l i = 0).
  { intros g l I Lg i Hi. rewrite Forall_forall in Wo.
    destruct (proj1 (pwf_support FS g l (Wo g I)) (proj1 Lg)) as (t & It & <-). rewrite canon_exp.
    apply (C96_variables fuel gens out i W NZ E) with (g := g); auto. intros h s Ih Is. apply expo_over. specialize (One h s Ih Is). lia. }
  assert (Len : exists g, out = [g]).
  { destruct out as [|a [|b out]]; [|eauto|].
    - exfalso. destruct gens as [|f gens]; [congruence|]. inversion W; inversion NZ; subst.
      destruct (pwf_lm_exists FS OS f) as (l & Ll); auto.
      destruct (C40_groebner_basis FS OS fuel (f :: gens) [] W NZ E (val f) l) as (g & _ & [] & _); auto. apply in_ideal_gen. left. reflexivity.
    - exfalso. inversion Wo as [|? ? Wa Wo']; inversion NZo as [|? ? Na NZo']; inversion Wo'; inversion NZo'; subst.
      destruct (pwf_lm_exists FS OS a) as (la & La); auto. destruct (pwf_lm_exists FS OS b) as (lb & Lb); auto.
      pose proof (V a la (or_introl eq_refl) La) as Va. pose proof (V b lb (or_intror (or_introl eq_refl)) Lb) as Vb.
      pose proof (C41_minimal FS OS fuel gens _ W NZ E) as M.
      destruct (Nat.le_ge_cases (mexp la 0) (mexp lb 0)) as [Le|Le].
      + apply (M 1 0 b a lb la); auto. intros [|i]; [exact Le|]. rewrite Va by lia. lia.
      + apply (M 0 1 a b la lb); auto. intros [|i]; [exact Le|]. rewrite Vb by lia. lia. }
  destruct Len as (g & ->). exists g. inversion NZo; subst. split; [reflexivity|]. split; [assumption|].
  assert (Ig : in_ideal (map val gens) (val g)) by (apply SI; apply in_ideal_gen; left; reflexivity).
  split; [exact Ig|]. split.
  - intros f I. assert (X : in_ideal (map val [g]) (val f)) by (apply SI; apply in_ideal_gen; apply in_map; exact I).
    destruct X as ([|q [|q' qs]] & L & X); simpl in L; try discriminate. exists q. rewrite X. simpl. ring.
  - intros h H. assert (X : in_ideal [h] (val g)).
    { apply (in_ideal_sub_ideal (map val gens)); [|exact Ig]. intros f I. apply in_map_iff in I as (f0 & <- & I).
      destruct (H f0 I) as (q & X). rewrite X. apply in_ideal_mul. apply in_ideal_gen. left. reflexivity. }
    destruct X as ([|q [|q' qs]] & L & X); simpl in L; try discriminate. exists q. rewrite X. simpl. ring.
Qed.

End PropIdeal.

(** ** C95: elimination *)
Section Elim.
Context {F : FieldImpl} {K : MathField} (FS : FieldSpec F K).
Add Field Kf21 : (kth K).
Notation poly := (poly F).
Notation val := (ip FS).
Notation clean := (pwf FS).
Notation nonzero := (fun g : poly => g <> []).

(** no term of the polynomial involves one of the variables x_0 .. x_(k-1) *)
Definition free_below (k : nat) (g : poly) : bool :=
  forallb (fun t => forallb (fun i => Nat.eqb (expo (tdeg t) i) 0) (seq 0 k)) g.
(** no term of the polynomial involves one of the variables x_k, x_(k+1), .. *)
Definition free_from (k : nat) (g : poly) : bool :=
  forallb (fun t => Nat.leb (length (tdeg t)) k) g.

Lemma free_below_iff k g : clean g -> free_below k g = true <-> over (fun m => forall i, i < k -> mexp m i = 0) (val g).
Proof.
  intros W. unfold free_below. rewrite forallb_forall. split.
  - intros H m N i Hi. apply (pwf_support FS g m W) in N as (t & It & <-). rewrite canon_exp. apply Nat.eqb_eq.
    specialize (H t It). rewrite forallb_forall in H. apply H. apply in_seq. lia.
  - intros H t It. apply forallb_forall. intros i Hi. apply in_seq in Hi. apply Nat.eqb_eq. rewrite <- canon_exp. apply H; [|lia].
    apply (pwf_support FS g _ W). eauto.
Qed.
Lemma free_from_iff k g : clean g -> free_from k g = true <-> over (fun m => mvars k m) (val g).
Proof.
  intros W. unfold free_from. rewrite forallb_forall. split.
  - intros H m N. apply (pwf_support FS g m W) in N as (t & It & <-). intros i Hi. rewrite canon_exp. apply expo_over.
    specialize (H t It). apply Nat.leb_le in H. lia.
  - intros H t It. apply Nat.leb_le. destruct W as [W ND]. pose proof W as W1. rewrite Forall_forall in W1. destruct (W1 t It) as (_ & _ & C & _).
    apply (canonical_length _ _ C). intros i Hi. rewrite <- canon_exp. apply H; [|exact Hi].
    apply (pwf_support FS g _ (conj W ND)). eauto.
Qed.

Lemma elim_generic {O} (OS : OrderSpec O) (S : mono -> Prop) (keep : poly -> bool) fuel (gens out : list poly) :
  S mone -> (forall a b, S a -> S b -> S (mmul a b)) -> (forall a b, mdiv a b -> S b -> S a) -> (forall a b, olt OS a b -> S b -> S a) ->
  (forall g, clean g -> keep g = true <-> over S (val g)) ->
  Forall clean gens -> Forall nonzero gens -> buchberger_algorithm Debug O fuel gens = Ok out ->
  (forall f, (in_ideal (map val gens) f /\ over S f) <-> in_ideal_over S (map val (filter keep out)) f) /\
  (forall f m, in_ideal (map val gens) f -> over S f -> is_lm (olt OS) f m ->
     exists g l, In g (filter keep out) /\ is_lm (olt OS) (val g) l /\ mdiv l m).
Proof.
  intros S1 SM SD SL HK W NZ E. destruct (algorithm_run FS OS fuel gens out W NZ E) as (Wo & SI & GB & _).
  pose proof Wo as Wo'. rewrite Forall_forall in Wo'. split.
  - intros f. split.
    + intros [I Ov]. apply (elimination S SM SD (olt OS) (olaws _ OS) SL (map val out)); auto.
      * intros g Ig Og. apply in_map_iff in Ig as (g0 & <- & Ig). apply in_map. apply filter_In. split; [exact Ig|]. apply HK; auto.
      * apply SI. exact I.
      * intros h Ih. apply in_map_iff in Ih as (h0 & <- & Ih). apply in_ideal_gen. apply in_map. apply filter_In in Ih. apply Ih.
    + intros H. split.
      * apply SI. apply over_ideal_in in H. revert H. apply in_ideal_incl. intros h Ih. apply in_map_iff in Ih as (h0 & <- & Ih).
        apply in_map. apply filter_In in Ih. apply Ih.
      * revert H. apply over_ideal_over; auto. intros g Ig. apply in_map_iff in Ig as (g0 & <- & Ig). apply filter_In in Ig as [Ig Kg].
        apply HK; auto.
  - intros f m I Ov Lf. destruct (C40_groebner_basis FS OS fuel gens out W NZ E f m I Lf) as (g & l & Ig & Lg & D).
    exists g, l. split; [|split; [exact Lg|exact D]]. apply filter_In. split; [exact Ig|]. apply HK; auto.
    apply (lm_over S (olt OS) SL _ l Lg). apply (SD l m D). apply Ov. apply Lf.
Qed.

(** Lex eliminates the first variables: the elements of the result without x_0 .. x_(k-1) generate,
    with coefficients in the remaining variables, all elements of the ideal without x_0 .. x_(k-1),
    and they are a Groebner basis *)
Theorem C95_lex : forall fuel (gens out : list poly) k, Forall clean gens -> Forall nonzero gens ->
  buchberger_algorithm Debug lex_cmp fuel gens = Ok out ->
  let later := fun m => forall i, i < k -> mexp m i = 0 in
  (forall f, (in_ideal (map val gens) f /\ over later f) <-> in_ideal_over later (map val (filter (free_below k) out)) f) /\
  (forall f m, in_ideal (map val gens) f -> over later f -> is_lm lex_lt f m ->
     exists g l, In g (filter (free_below k) out) /\ is_lm lex_lt (val g) l /\ mdiv l m).
Proof.
  intros fuel gens out k W NZ E later. apply (elim_generic lex_spec later (free_below k) fuel gens out); auto.
  - intros i _. apply mone_exp.
  - intros a b Ha Hb i Hi. rewrite mmul_exp, Ha, Hb by exact Hi. reflexivity.
  - intros a b D Hb i Hi. specialize (D i). rewrite Hb in D by exact Hi. lia.
  - intros a b (j & Lj & Ej) Hb i Hi. destruct (lt_dec i j) as [X|X]; [rewrite Ej by exact X; apply Hb; exact Hi|].
    assert (mexp b j = 0) by (apply Hb; lia). lia.
  - intros g Wg. apply free_below_iff. exact Wg.
Qed.

(** RevLex, as the crate defines it, eliminates the last variables *)
Theorem C95_revlex : forall fuel (gens out : list poly) k, Forall clean gens -> Forall nonzero gens ->
  buchberger_algorithm Debug revlex_cmp fuel gens = Ok out ->
  (forall f, (in_ideal (map val gens) f /\ svars k f) <-> in_ideal_over (mvars k) (map val (filter (free_from k) out)) f) /\
  (forall f m, in_ideal (map val gens) f -> svars k f -> is_lm revlex_lt f m ->
     exists g l, In g (filter (free_from k) out) /\ is_lm revlex_lt (val g) l /\ mdiv l m).
Proof.
  intros fuel gens out k W NZ E. apply (elim_generic revlex_spec (mvars k) (free_from k) fuel gens out); auto.
  - apply mvars_one.
  - intros a b Ha Hb. apply mvars_mul. auto.
  - intros a b D Hb. eapply mvars_div; eassumption.
  - intros a b (j & Lj & Ej) Hb i Hi. destruct (lt_dec j i) as [X|X]; [rewrite Ej by exact X; apply Hb; exact Hi|].
    assert (mexp b j = 0) by (apply Hb; lia). lia.
  - intros g Wg. apply free_from_iff. exact Wg.
Qed.
End Elim.

(** ** Concrete cases *)
(** the ideal (xy - 1, x - y) with zeros (1, 1) and (-1, -1) *)
Definition ex_i1 : poly (rat_impl Debug) := [ex_t 1 1 [1; 1]; ex_t (-1) 1 []].
Definition ex_i2 : poly (rat_impl Debug) := [ex_t 1 1 [1]; ex_t (-1) 1 [0; 1]].
Definition ex_i3 : poly (rat_impl Debug) := [ex_t 1 1 [0; 2]; ex_t (-1) 1 []].
Example ex_i_clean : Forall (pwf rat_spec) [ex_i1; ex_i2; ex_i3] /\ Forall (fun g => g <> []) [ex_i1; ex_i2; ex_i3].
Proof. split; repeat (constructor; [first [apply ex_clean; reflexivity|discriminate]|]); constructor. Qed.
Example C95_run : buchberger_algorithm Debug lex_cmp 30 [ex_i1; ex_i2] = Ok [ex_i2; ex_i3].
Proof. reflexivity. Qed.
Example C95_ex : filter (free_below 1) [ex_i2; ex_i3] = [ex_i3] /\ filter (free_below 2) [ex_i2; ex_i3] = [].
Proof. split; reflexivity. Qed.
Example C95_revlex_ex : buchberger_algorithm Debug revlex_cmp 30 [ex_i1; ex_i2] =
    Ok [ex_i2; [ex_t 1 1 [2]; ex_t (-1) 1 []]].
Proof. reflexivity. Qed.
Example C95_revlex_free : filter (free_from 1) [ex_i2; [ex_t 1 1 [2]; ex_t (-1) 1 []]] = [[ex_t 1 1 [2]; ex_t (-1) 1 []]].
Proof. reflexivity. Qed.
(** x^3 + y and x + 1 have normal forms 2y and y + 1; their product has the normal form of 2y(y + 1) *)
Example C92_ex : groebner lex_lt (map (ip rat_spec) [ex_i2; ex_i3]) /\
  divide Debug lex_cmp 20 [ex_t 1 1 [3]; ex_t 1 1 [0; 1]] [ex_i2; ex_i3] =
    Ok ([ex_t 2 1 [0; 1]], [[ex_t 1 1 [2]; ex_t 1 1 [1; 1]; ex_t 1 1 [0; 2]]; [ex_t 1 1 [0; 1]]]) /\
  divide Debug lex_cmp 20 [ex_t 1 1 [1]; ex_t 1 1 []] [ex_i2; ex_i3] = Ok ([ex_t 1 1 [0; 1]; ex_t 1 1 []], [[ex_t 1 1 []]; []]).
Proof.
  split; [|split; reflexivity].
  destruct ex_i_clean as [A B]. inversion A as [|? ? A1 A']; inversion A' as [|? ? A2 A3]; inversion B as [|? ? B1 B']; inversion B' as [|? ? B2 B3]; subst.
  destruct (algorithm_run rat_spec lex_spec 30 [ex_i1; ex_i2] [ex_i2; ex_i3]) as (_ & _ & G & _);
    [exact (Forall_cons _ A1 (Forall_cons _ A2 (Forall_nil _)))|constructor; [exact B1|constructor; [exact B2|constructor]]|exact C95_run|exact G].
Qed.
Example C93_ex : poly_eval ex_i1 [mkrat 1 1 : rat_impl Debug; mkrat 1 1] = Ok (mkrat 0 1 : rat_impl Debug) /\
  poly_eval ex_i2 [mkrat 1 1 : rat_impl Debug; mkrat 1 1] = Ok (mkrat 0 1 : rat_impl Debug) /\
  poly_eval ex_i3 [mkrat 1 1 : rat_impl Debug; mkrat 1 1] = Ok (mkrat 0 1 : rat_impl Debug).
Proof. repeat split; reflexivity. Qed.
(** x and x + 1 *)
Example C94_ex : buchberger_algorithm Debug lex_cmp 30 [[ex_t 1 1 [1]]; [ex_t 1 1 [1]; ex_t 1 1 []]] = Ok [[ex_t 1 1 []]].
Proof. reflexivity. Qed.
Example C97_ex : buchberger_algorithm Debug lex_cmp 30 [ex_i3; ex_i2] = Ok [ex_i3; ex_i2].
Proof. reflexivity. Qed.
(** x^2 - 1 and x^2 - 2x + 1: the gcd is x - 1 *)
Example C98_ex : buchberger_algorithm Debug lex_cmp 30
    [[ex_t 1 1 [2]; ex_t (-1) 1 []]; [ex_t 1 1 [2]; ex_t (-2) 1 [1]; ex_t 1 1 []]] = Ok [[ex_t 1 1 [1]; ex_t (-1) 1 []]].
Proof. reflexivity. Qed.

Print Assumptions C92_congruence.
Print Assumptions C92_idempotent.
Print Assumptions C92_linear.
Print Assumptions C92_multiplicative.
Print Assumptions C93_zero_set.
Print Assumptions C93_remainder_value.
Print Assumptions C94_unit_ideal.
Print Assumptions C94_no_common_zero.
Print Assumptions C96_variables.
Print Assumptions C96_evaluable.
Print Assumptions C97_containment.
Print Assumptions C97_equality.
Print Assumptions C98_gcd.
Print Assumptions C95_lex.
Print Assumptions C95_revlex.
