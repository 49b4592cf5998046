(** * Properties C105, C106: saturation, radical membership, intersection and quotient of ideals.

    The classical client programs of Buchberger's algorithm with one extra variable. [ppow f n] is the
    n-th power, [in_ideal G p] says that [p] is a combination of [G] with polynomial coefficients and
    [in_ideal_over S G p] that it is one with coefficients all of whose monomials satisfy [S]. *)
From Verif Require Import Base BaseLemmas IntModel RatModel FieldIface RatProofs MDegModel OrdModel PolyModel CompModel
  MonoSpec MDegProofs OrdProofs PolySpec PolyProofs GroebnerSpec DivProofs DivSpec GbProofs CompMono PropPoly PropDiv PropGb IdealSpec PropIdeal SubstSpec.
From Coq Require Import Ring Field Setoid Morphisms Permutation.

Local Open Scope nat_scope.

Section Ops.
Context {F : FieldImpl} {K : MathField} (FS : FieldSpec F K).
Add Field Kf30 : (kth K).
Add Ring Pr30 : (@poly_ring K) (setoid (@peq_equiv K) (@poly_ring_ext K)).
Notation poly := (poly F).
Notation val := (ip FS).
Notation clean := (pwf FS).
Notation nonzero := (fun g : poly => g <> []).
Notation vanishes x := (fun g : poly => exists v, poly_eval g x = Ok v /\ den FS v = k0).

(** 1 - x_i f, computed with the operators of the crate *)
Definition one_minus (i : nat) (f : poly) : res poly := xf <- poly_mul Debug (poly_var i 1) f ;; poly_sub poly_one xf.
(** x_i f for f in the first list, followed by (1 - x_i) g for g in the second *)
Definition mix (i : nat) (gens gens' : list poly) : res (list poly) :=
  a <- mapM (poly_mul Debug (poly_var i 1)) gens ;;
  u <- poly_sub poly_one (poly_var i 1) ;;
  b <- mapM (poly_mul Debug u) gens' ;;
  Ok (a ++ b).
(** the variable x_i occurs in no term *)
Definition unused (i : nat) (g : poly) : Prop := forall t, In t g -> expo (tdeg t) i = 0.

Lemma unused_without i g : clean g -> unused i g -> without i (val g).
Proof. intros W U m N. apply (pwf_support FS g m W) in N as (t & I & <-). rewrite canon_exp. apply U. exact I. Qed.
Lemma unused_list i gs : Forall clean gs -> Forall (unused i) gs -> forall g, In g (map val gs) -> without i g.
Proof. intros W U g I. apply in_map_iff in I as (g0 & <- & I). rewrite Forall_forall in W, U. apply unused_without; auto. Qed.
Lemma clean_var i : clean (poly_var (F:=F) i 1) /\ peq (val (poly_var i 1)) (pvar i).
Proof.
  destruct (term_var_ok FS i 1 ltac:(lia)) as [W E]. split; [apply pwf_single; exact W|].
  unfold poly_var, poly_term. rewrite ip_single, E. reflexivity.
Qed.
Lemma clean_one : clean (poly_one (F:=F)) /\ peq (val poly_one) pone.
Proof.
  split; [apply pwf_single; apply term_one_wf|]. unfold poly_one, poly_term. rewrite ip_single, it_term_one. reflexivity.
Qed.
Lemma one_minus_ok i f h : clean f -> one_minus i f = Ok h -> clean h /\ peq (val h) (aux i (val f)).
Proof.
  intros W E. unfold one_minus in E. apply bind_Ok in E as (xf & E1 & E2). destruct (clean_var i) as [Wv Ev]. destruct clean_one as [Wo Eo].
  destruct (safe_val _ _ _ (poly_mul_ok FS _ f (clean_f0 FS _ Wv) W) E1) as [W1 X1].
  destruct (safe_val _ _ _ (poly_sub_ok FS _ xf Wo (clean_f0 FS _ W1)) E2) as [W2 X2]. split; [exact W2|].
  rewrite X2, X1, Ev, Eo. reflexivity.
Qed.
Lemma aux_nonzero i (f : spoly K) : ~ peq (aux i f) pzero.
Proof.
  intros Z. set (w := fun e : nat => match e with 0 => @pone K | S _ => pzero end).
  assert (X : peq (pw i w (aux i f)) pone).
  { assert (E : peq (aux i f) (psub pone (pmul f (pvar i)))) by (unfold aux; ring). rewrite E, pw_sub, pw_one, pw_var.
    change (fun e => w (S e)) with (fun _ : nat => @pzero K). rewrite pw_zero. unfold w. ring. }
  rewrite Z in X. change (pw i w (@pzero K)) with (@pzero K) in X. apply (F_1_neq_0 (kth K)).
  specialize (X (fun _ => k1)). unfold pone in X. cbn in X. transitivity (kadd (kmul (@k1 K) k1) k0); [ring|]. symmetry. exact X.
Qed.
Lemma nonzero_of (h : poly) p : peq (val h) p -> ~ peq p pzero -> h <> [].
Proof. intros E N ->. apply N. rewrite <- E. reflexivity. Qed.
Lemma ideal_peq (G H : list (spoly K)) p : Forall2 peq G H -> in_ideal G p -> in_ideal H p.
Proof.
  intros E (qs & L & X). exists qs. split; [rewrite <- (Forall2_len _ _ _ E); exact L|]. rewrite X. clear X p. revert qs L.
  induction E as [|g h G H E1 E IH]; intros [|q qs] L; cbn [lincomb length] in *; try discriminate; try reflexivity.
  injection L as L. rewrite E1, (IH qs L). reflexivity.
Qed.
Lemma Forall2_peq_sym (G H : list (spoly K)) : Forall2 peq G H -> Forall2 peq H G.
Proof. induction 1; constructor; auto. symmetry. assumption. Qed.
Lemma Forall2_peq_refl (G : list (spoly K)) : Forall2 peq G G.
Proof. induction G; constructor; auto. reflexivity. Qed.

Lemma aux_ideal i gens f h p : peq (val h) (aux i (val f)) ->
  (in_ideal (map val (gens ++ [h])) p <-> in_ideal (map val gens ++ [aux i (val f)]) p).
Proof.
  intros E. assert (X : Forall2 peq (map val (gens ++ [h])) (map val gens ++ [aux i (val f)])).
  { rewrite map_app. apply Forall2_app; [apply Forall2_peq_refl|]. constructor; [exact E|constructor]. }
  split; apply ideal_peq; [exact X|apply Forall2_peq_sym; exact X].
Qed.
Lemma aux_gens i gens f h : Forall clean gens -> Forall nonzero gens -> clean f -> one_minus i f = Ok h ->
  Forall clean (gens ++ [h]) /\ Forall nonzero (gens ++ [h]) /\ peq (val h) (aux i (val f)).
Proof.
  intros W NZ Wf E. destruct (one_minus_ok i f h Wf E) as [Wh Eh]. split; [apply Forall_app; auto|]. split; [|exact Eh].
  apply Forall_app. split; [exact NZ|]. constructor; [|constructor]. eapply nonzero_of; [exact Eh|apply aux_nonzero].
Qed.

(** ** C105 *)
(** radical membership: some power of f is in the ideal iff the algorithm reduces the extended generators to one constant *)
Theorem C105_radical : forall (O : ord_impl) (OS : OrderSpec O) fuel i (gens out : list poly) f h,
  Forall clean gens -> Forall nonzero gens -> clean f -> Forall (unused i) gens -> unused i f ->
  one_minus i f = Ok h -> buchberger_algorithm Debug O fuel (gens ++ [h]) = Ok out ->
  ((exists n, in_ideal (map val gens) (ppow (val f) n)) <-> exists t, out = [[t]] /\ tdeg t = []).
Proof.
  intros O OS fuel i gens out f h W NZ Wf U Uf Eh E. destruct (aux_gens i gens f h W NZ Wf Eh) as (Wa & Na & Vh).
  rewrite <- (proj2 (C94_unit_ideal FS OS fuel (gens ++ [h]) out Wa Na E)). rewrite (aux_ideal i gens f h pone Vh).
  symmetry. apply radical; [apply unused_list; assumption|apply unused_without; assumption].
Qed.
(** then f vanishes wherever the generators do *)
Theorem C105_radical_vanishes : forall (O : ord_impl) (OS : OrderSpec O) fuel i (gens : list poly) f h t x v,
  Forall clean gens -> Forall nonzero gens -> clean f -> Forall (unused i) gens -> unused i f ->
  one_minus i f = Ok h -> buchberger_algorithm Debug O fuel (gens ++ [h]) = Ok [[t]] -> tdeg t = [] ->
  Forall (fwf FS) x -> Forall (vanishes x) gens -> poly_eval f x = Ok v -> den FS v = k0.
Proof.
  intros O OS fuel i gens f h t x v W NZ Wf U Uf Eh E D Wx V Ev.
  destruct (proj2 (C105_radical O OS fuel i gens _ f h W NZ Wf U Uf Eh E)) as (n & I); [exists t; auto|].
  pose proof (vanish_ideal FS x gens _ Wx W V I) as Z. rewrite (eval_val FS f x v Wf Wx Ev).
  assert (P : forall n, peval (pt FS x) (ppow (val f) n) = k0 -> peval (pt FS x) (val f) = k0).
  { clear. induction n as [|n IH]; cbn [ppow]; intros Z.
    - exfalso. apply (F_1_neq_0 (kth K)). rewrite <- Z. unfold peval, pone. simpl. rewrite (proj1 (mval_multiplicative (pt FS x))). ring.
    - rewrite peval_mul in Z. destruct (kdec (peval (pt FS x) (val f)) k0) as [|N]; [assumption|]. apply IH.
      assert (X : peval (pt FS x) (ppow (val f) n) = kmul (kinv (peval (pt FS x) (val f))) (kmul (peval (pt FS x) (val f)) (peval (pt FS x) (ppow (val f) n)))) by (field; exact N).
      rewrite X, Z. ring. }
  apply (P n Z).
Qed.
(** saturation: eliminating the extra variable gives the p with f^n p in the ideal for some n *)
Lemma saturation_generic i gens f h (S : mono -> Prop) (kept : list poly) :
  Forall clean gens -> clean f -> Forall (unused i) gens -> unused i f -> peq (val h) (aux i (val f)) ->
  (forall m, S m -> mexp m i = 0) ->
  (forall p, (in_ideal (map val (gens ++ [h])) p /\ over S p) <-> in_ideal_over S (map val kept) p) ->
  forall p, over S p -> (in_ideal_over S (map val kept) p <-> exists n, in_ideal (map val gens) (pmul (ppow (val f) n) p)).
Proof.
  intros W Wf U Uf Vh HS HE p Op. rewrite <- (saturation i (map val gens) (val f) p).
  - rewrite <- (aux_ideal i gens f h p Vh), <- HE. tauto.
  - apply unused_list; assumption.
  - apply unused_without; assumption.
  - intros m N. apply HS. apply Op. exact N.
Qed.
Theorem C105_saturation_lex : forall fuel (gens out : list poly) f h,
  Forall clean gens -> Forall nonzero gens -> clean f -> Forall (unused 0) gens -> unused 0 f ->
  one_minus 0 f = Ok h -> buchberger_algorithm Debug lex_cmp fuel (gens ++ [h]) = Ok out ->
  let later := fun m => forall i, i < 1 -> mexp m i = 0 in
  forall p, over later p ->
    (in_ideal_over later (map val (filter (free_below 1) out)) p <-> exists n, in_ideal (map val gens) (pmul (ppow (val f) n) p)).
Proof.
  intros fuel gens out f h W NZ Wf U Uf Eh E later. destruct (aux_gens 0 gens f h W NZ Wf Eh) as (Wa & Na & Vh).
  apply (saturation_generic 0 gens f h later); auto. apply (C95_lex FS fuel (gens ++ [h]) out 1 Wa Na E).
Qed.
Theorem C105_saturation_revlex : forall fuel k (gens out : list poly) f h,
  Forall clean gens -> Forall nonzero gens -> clean f -> Forall (unused k) gens -> unused k f ->
  one_minus k f = Ok h -> buchberger_algorithm Debug revlex_cmp fuel (gens ++ [h]) = Ok out ->
  forall p, svars k p ->
    (in_ideal_over (mvars k) (map val (filter (free_from k) out)) p <-> exists n, in_ideal (map val gens) (pmul (ppow (val f) n) p)).
Proof.
  intros fuel k gens out f h W NZ Wf U Uf Eh E. destruct (aux_gens k gens f h W NZ Wf Eh) as (Wa & Na & Vh).
  apply (saturation_generic k gens f h (mvars k)); auto. apply (C95_revlex FS fuel (gens ++ [h]) out k Wa Na E).
Qed.

(** ** C106 *)
Lemma mul_all c gs r : clean c -> Forall clean gs -> mapM (poly_mul Debug c) gs = Ok r ->
  Forall clean r /\ Forall2 peq (map val r) (map (pmul (val c)) (map val gs)).
Proof.
  intros Wc W E. apply mapM_Ok in E. induction E as [|g h gs r E1 E IH]; [split; constructor|].
  inversion W as [|? ? Wg Wgs]; subst. destruct (IH Wgs) as [A B].
  destruct (safe_val _ _ _ (poly_mul_ok FS c g (clean_f0 FS c Wc) Wg) E1) as [W1 X1]. split; constructor; auto.
Qed.
Lemma Forall2_map_pmul (c d : spoly K) (G : list (spoly K)) : peq c d -> Forall2 peq (map (pmul c) G) (map (pmul d) G).
Proof. intros E. induction G; constructor; auto. rewrite E. reflexivity. Qed.
Lemma Forall2_peq_trans (A B C : list (spoly K)) : Forall2 peq A B -> Forall2 peq B C -> Forall2 peq A C.
Proof. intros H. revert C. induction H as [|a b A B E H IH]; intros C H'; inversion H'; subst; constructor; eauto. etransitivity; eassumption. Qed.
Lemma not_zero_mul (a b : spoly K) : ~ peq a pzero -> ~ peq b pzero -> ~ peq (pmul a b) pzero.
Proof. intros A B Z. apply (pmul_zero_inv lex_lt (olaws _ lex_spec)) in Z. tauto. Qed.
Lemma pvar_nonzero i : ~ peq (@pvar K i) pzero.
Proof.
  intros Z. apply (F_1_neq_0 (kth K)). specialize (Z (fun _ => k1)). unfold pvar, pterm in Z. cbn in Z.
  transitivity (kadd (kmul (@k1 K) k1) k0); [ring|]. exact Z.
Qed.
Lemma mix_ok i gens gens' big : Forall clean gens -> Forall nonzero gens -> Forall clean gens' -> Forall nonzero gens' ->
  mix i gens gens' = Ok big ->
  Forall clean big /\ Forall nonzero big /\ Forall2 peq (map val big) (mixed i (map val gens) (map val gens')).
Proof.
  intros W NZ W' NZ' E. unfold mix in E. apply bind_Ok in E as (a & Ea & E). apply bind_Ok in E as (u & Eu & E).
  apply bind_Ok in E as (b & Eb & E). injection E as <-. destruct (clean_var i) as [Wv Vv]. destruct clean_one as [Wo Vo].
  destruct (safe_val _ _ _ (poly_sub_ok FS _ _ Wo (clean_f0 FS _ Wv)) Eu) as [Wu Vu].
  destruct (mul_all _ gens a Wv W Ea) as [Wa Va]. destruct (mul_all _ gens' b Wu W' Eb) as [Wb Vb].
  assert (X : peq (val u) (psub pone (pvar i))) by (rewrite Vu, Vv, Vo; reflexivity).
  assert (Y : Forall2 peq (map val (a ++ b)) (mixed i (map val gens) (map val gens'))).
  { rewrite map_app. unfold mixed. apply Forall2_app; [eapply Forall2_peq_trans; [exact Va|apply Forall2_map_pmul; exact Vv]|].
    eapply Forall2_peq_trans; [exact Vb|apply Forall2_map_pmul; exact X]. }
  split; [apply Forall_app; auto|]. split; [|exact Y].
  apply Forall_forall. intros g I. apply (in_map val) in I. apply In_nth_error in I as (n & En).
  destruct (GbProofs.Forall2_nth _ _ _ _ _ Y En) as (m & Em & Eg). intros ->. apply nth_error_In in Em.
  assert (Z : peq m pzero) by (rewrite <- Eg; reflexivity). clear - W W' NZ NZ' Em Z FS.
  assert (NV : forall g, clean g -> g <> [] -> ~ peq (val g) pzero) by (intros g Wg Ng Zg; apply Ng; apply (pwf_zero_iff FS g Wg); exact Zg).
  rewrite Forall_forall in W, W', NZ, NZ'. unfold mixed in Em. apply in_app_or in Em as [Em|Em]; rewrite map_map in Em; apply in_map_iff in Em as (g & <- & I).
  - revert Z. apply not_zero_mul; [apply pvar_nonzero|apply NV; auto; apply NZ; exact I].
  - revert Z. apply not_zero_mul; [|apply NV; auto; apply NZ'; exact I]. intros Z. apply (aux_nonzero i pone). rewrite <- Z. unfold aux. ring.
Qed.
Lemma intersection_generic i gens gens' big (S : mono -> Prop) (kept : list poly) :
  Forall clean gens -> Forall clean gens' -> Forall (unused i) gens -> Forall (unused i) gens' ->
  Forall2 peq (map val big) (mixed i (map val gens) (map val gens')) ->
  (forall m, S m -> mexp m i = 0) ->
  (forall p, (in_ideal (map val big) p /\ over S p) <-> in_ideal_over S (map val kept) p) ->
  forall p, over S p -> (in_ideal_over S (map val kept) p <-> in_ideal (map val gens) p /\ in_ideal (map val gens') p).
Proof.
  intros W W' U U' V HS HE p Op. rewrite <- (intersection i (map val gens) (map val gens') p).
  - rewrite <- HE. split.
    + intros [I _]. revert I. apply ideal_peq. exact V.
    + intros I. split; [|exact Op]. revert I. apply ideal_peq. apply Forall2_peq_sym. exact V.
  - apply unused_list; assumption.
  - apply unused_list; assumption.
  - intros m N. apply HS. apply Op. exact N.
Qed.
(** the results without the extra variable generate the intersection *)
Theorem C106_intersection_lex : forall fuel (gens gens' big out : list poly),
  Forall clean gens -> Forall nonzero gens -> Forall clean gens' -> Forall nonzero gens' ->
  Forall (unused 0) gens -> Forall (unused 0) gens' ->
  mix 0 gens gens' = Ok big -> buchberger_algorithm Debug lex_cmp fuel big = Ok out ->
  let later := fun m => forall i, i < 1 -> mexp m i = 0 in
  forall p, over later p ->
    (in_ideal_over later (map val (filter (free_below 1) out)) p <-> in_ideal (map val gens) p /\ in_ideal (map val gens') p).
Proof.
  intros fuel gens gens' big out W NZ W' NZ' U U' Eb E later. destruct (mix_ok 0 gens gens' big W NZ W' NZ' Eb) as (Wb & Nb & Vb).
  apply (intersection_generic 0 gens gens' big later); auto. apply (C95_lex FS fuel big out 1 Wb Nb E).
Qed.
Theorem C106_intersection_revlex : forall fuel k (gens gens' big out : list poly),
  Forall clean gens -> Forall nonzero gens -> Forall clean gens' -> Forall nonzero gens' ->
  Forall (unused k) gens -> Forall (unused k) gens' ->
  mix k gens gens' = Ok big -> buchberger_algorithm Debug revlex_cmp fuel big = Ok out ->
  forall p, svars k p ->
    (in_ideal_over (mvars k) (map val (filter (free_from k) out)) p <-> in_ideal (map val gens) p /\ in_ideal (map val gens') p).
Proof.
  intros fuel k gens gens' big out W NZ W' NZ' U U' Eb E. destruct (mix_ok k gens gens' big W NZ W' NZ' Eb) as (Wb & Nb & Vb).
  apply (intersection_generic k gens gens' big (mvars k)); auto. apply (C95_revlex FS fuel big out k Wb Nb E).
Qed.

(** ideal quotient: intersect with (f) and divide the results by f *)
Lemma single_groebner {O} (OS : OrderSpec O) (f : spoly K) : groebner (olt OS) [f].
Proof.
  intros p m ([|q [|]] & L & E) LM; try discriminate. cbn in E. assert (X : peq p (pmul q f)) by (rewrite E; ring).
  destruct (lm_pmul_inv (olt OS) (olaws _ OS) q f m) as (a & b & _ & B & ->).
  { destruct LM as [A B]. split; [rewrite <- X; exact A|]. intros x N. apply B. rewrite X. exact N. }
  exists f, b. split; [left; reflexivity|]. split; [exact B|]. intros i. rewrite mmul_exp. lia.
Qed.
Lemma lincomb_quot (g : spoly K) : forall cs ks qs, Forall2 (fun k q => peq k (pmul q g)) ks qs -> length cs = length ks ->
  peq (lincomb cs ks) (pmul g (lincomb cs qs)).
Proof.
  intros cs ks qs H. revert cs. induction H as [|k q ks qs E H IH]; intros [|c cs] L; cbn [lincomb length] in *; try discriminate; [ring|].
  injection L as L. rewrite (IH cs L), E. ring.
Qed.
Theorem C106_quotient : forall fuel (gens big out : list poly) (f : poly),
  Forall clean gens -> Forall nonzero gens -> clean f -> f <> [] -> Forall (unused 0) gens -> unused 0 f ->
  mix 0 gens [f] = Ok big -> buchberger_algorithm Debug lex_cmp fuel big = Ok out ->
  let later := fun m => forall i, i < 1 -> mexp m i = 0 in
  forall qs, Forall2 (fun g q => exists n r, divide Debug lex_cmp n g [f] = Ok (r, [q])) (filter (free_below 1) out) qs ->
  Forall2 (fun g q => exists n, divide Debug lex_cmp n g [f] = Ok ([], [q])) (filter (free_below 1) out) qs /\
  forall p, over later p -> (in_ideal_over later (map val qs) p <-> in_ideal (map val gens) (pmul (val f) p)).
Proof.
  intros fuel gens big out f W NZ Wf Nf U Uf Eb E later qs H.
  assert (W' : Forall clean [f]) by (constructor; [exact Wf|constructor]). assert (U' : Forall (unused 0) [f]) by (constructor; [exact Uf|constructor]).
  assert (NZ' : Forall nonzero [f]) by (constructor; [exact Nf|constructor]).
  destruct (mix_ok 0 gens [f] big W NZ W' NZ' Eb) as (Wb & Nb & Vb). destruct (C39_same_ideal FS lex_spec fuel big out Wb Nb E) as [Wo SI].
  pose proof (C106_intersection_lex fuel gens [f] big out W NZ W' NZ' U U' Eb E) as I. fold later in I.
  set (kept := filter (free_below 1) out) in *.
  assert (Wk : forall g, In g kept -> clean g) by (intros g Ig; apply filter_In in Ig as [Ig _]; rewrite Forall_forall in Wo; auto).
  assert (Ok' : forall g, In g kept -> over later (val g)).
  { intros g Ig. apply free_below_iff; [apply Wk; exact Ig|]. apply filter_In in Ig. apply Ig. }
  assert (Mem : forall g, In g kept -> in_ideal (map val gens) (val g) /\ in_ideal [val f] (val g)).
  { intros g Ig. apply (I (val g) (Ok' g Ig)). assert (X : peq (val g) (tmul k1 mone (val g))).
    { intros phi. rewrite ev_tmul. rewrite (ev_ext (val g) (fun b => phi (mmul mone b)) phi) by (intros b; rewrite mmul_1_l; reflexivity). ring. }
    rewrite X. apply over_ideal_gen; [apply in_map; exact Ig|]. intros i _. apply mone_exp. }
  assert (D : Forall2 (fun g q => exists n, divide Debug lex_cmp n g [f] = Ok ([], [q])) kept qs).
  { clear I Ok'. clearbody kept. induction H as [|g q ks qs (n & r & Hd) H IH]; constructor.
    - exists n. assert (r = []) as ->; [|exact Hd]. apply (C45_membership FS lex_spec n g [f] r [q]); auto.
      + apply Wk. left. reflexivity.
      + apply single_groebner.
      + apply Mem. left. reflexivity.
    - apply IH; intros; [apply Wk|apply Mem]; right; assumption. }
  split; [exact D|]. intros p Op.
  assert (Q : Forall2 (fun k q => peq k (pmul q (val f))) (map val kept) (map val qs)).
  { clear - D Wk Wf FS. induction D as [|g q ks qs (n & Hd) D IH]; constructor; [|apply IH; intros; apply Wk; right; assumption].
    destruct (C32_division_identity FS lex_spec n g [f] [] [q] (Wk g (or_introl eq_refl)) (Forall_cons _ Wf (Forall_nil _)) Hd) as (_ & _ & _ & X).
    rewrite X. cbn [lincomb map]. change (val []) with (@pzero K). ring. }
  assert (Of : over later (val f)).
  { intros m N i Hi. replace i with 0 by lia. apply (unused_without 0 f Wf Uf m N). }
  assert (SM : forall a b, later a -> later b -> later (mmul a b)) by (intros a b A B i Hi; rewrite mmul_exp, A, B by exact Hi; reflexivity).
  assert (Key : in_ideal_over later (map val qs) p <-> in_ideal_over later (map val kept) (pmul (val f) p)).
  { split; intros (cs & L & Oc & X); rewrite map_length in L; pose proof (Forall2_len _ _ _ D) as LD.
    - exists cs. split; [rewrite map_length; lia|]. split; [exact Oc|]. rewrite X. symmetry. apply lincomb_quot; [exact Q|rewrite map_length; lia].
    - exists cs. split; [rewrite map_length; lia|]. split; [exact Oc|].
      rewrite (lincomb_quot (val f) cs (map val kept) (map val qs) Q) in X by (rewrite map_length; exact L).
      assert (Y : peq (pmul (val f) (psub p (lincomb cs (map val qs)))) pzero).
      { assert (T : peq (pmul (val f) (psub p (lincomb cs (map val qs)))) (psub (pmul (val f) p) (pmul (val f) (lincomb cs (map val qs))))) by ring.
        rewrite T, X. ring. }
      apply (pmul_zero_inv lex_lt (olaws _ lex_spec)) in Y as [Y|Y]; [exfalso; apply Nf; apply (pwf_zero_iff FS f Wf); exact Y|].
      assert (T : peq p (padd (psub p (lincomb cs (map val qs))) (lincomb cs (map val qs)))) by ring. rewrite T, Y. ring. }
  rewrite Key, (I (pmul (val f) p) (over_mul later SM _ _ Of Op)). split; [tauto|]. intros J. split; [exact J|].
  assert (T : peq (pmul (val f) p) (pmul p (val f))) by ring. rewrite T. apply in_ideal_mul. apply in_ideal_gen. left. reflexivity.
Qed.
End Ops.

(** ** Concrete cases *)
Definition ex_x1 : poly (rat_impl Debug) := [ex_t 1 1 [0; 1]].
Definition ex_x11 : poly (rat_impl Debug) := [ex_t 1 1 [0; 2]].
Definition ex_x12 : poly (rat_impl Debug) := [ex_t 1 1 [0; 1; 1]].
Definition ex_h1 : poly (rat_impl Debug) := [ex_t 1 1 []; ex_t (-1) 1 [1; 1]].
Example C105_hyps : Forall (pwf rat_spec) [ex_x1; ex_x11; ex_x12] /\ Forall (fun g : poly (rat_impl Debug) => g <> []) [ex_x1; ex_x11; ex_x12] /\
  Forall (unused 0) [ex_x1; ex_x11; ex_x12].
Proof.
  split; [|split]; repeat (constructor; [first [apply ex_clean; reflexivity|discriminate|intros t [<-|[]]; reflexivity]|]); constructor.
Qed.
(** x_1 is in the radical of (x_1^2) *)
Example C105_ex_radical : one_minus 0 ex_x1 = Ok ex_h1 /\ buchberger_algorithm Debug lex_cmp 30 ([ex_x11] ++ [ex_h1]) = Ok [[ex_t 1 1 []]].
Proof. split; reflexivity. Qed.
Example C105_ex_power : exists n, in_ideal (map (ip rat_spec) [ex_x11]) (ppow (ip rat_spec ex_x1) n).
Proof.
  destruct C105_hyps as (W & NZ & U). inversion W as [|? ? W1 W']; inversion W' as [|? ? W2 _]; inversion NZ as [|? ? _ NZ']; inversion NZ' as [|? ? N2 _];
    inversion U as [|? ? U1 U']; inversion U' as [|? ? U2 _]; subst. destruct C105_ex_radical as [E1 E2].
  apply (C105_radical rat_spec lex_cmp lex_spec 30 0 [ex_x11] [[ex_t 1 1 []]] ex_x1 ex_h1
    (Forall_cons _ W2 (Forall_nil _)) (Forall_cons (P := fun g : poly (rat_impl Debug) => g <> []) _ N2 (Forall_nil _)) W1 (Forall_cons _ U2 (Forall_nil _)) U1 E1 E2).
  exists (ex_t 1 1 []). split; reflexivity.
Qed.
(** the saturation of (x_1 x_2) by x_1 is (x_2) *)
Example C105_ex_saturation : buchberger_algorithm Debug lex_cmp 30 ([ex_x12] ++ [ex_h1]) = Ok [ex_h1; [ex_t 1 1 [0; 0; 1]]] /\
  filter (free_below 1) [ex_h1; [ex_t 1 1 [0; 0; 1]]] = [[ex_t 1 1 [0; 0; 1]]].
Proof. split; reflexivity. Qed.
(** the saturation of (x_0^2 + x_0 x_1) by x_0 is (x_0 + x_1) *)
Example C105_ex_saturation_revlex : one_minus 2 [ex_t 1 1 [1]] = Ok [ex_t 1 1 []; ex_t (-1) 1 [1; 0; 1]] /\
  buchberger_algorithm Debug revlex_cmp 30 ([[ex_t 1 1 [2]; ex_t 1 1 [1; 1]]] ++ [[ex_t 1 1 []; ex_t (-1) 1 [1; 0; 1]]]) =
    Ok [[ex_t 1 1 []; ex_t (-1) 1 [1; 0; 1]]; [ex_t 1 1 [0; 1]; ex_t 1 1 [1]]].
Proof. split; reflexivity. Qed.
(** (x_1) and (x_2) meet in (x_1 x_2) *)
Definition ex_mix : list (poly (rat_impl Debug)) := [[ex_t 1 1 [1; 1]]; [ex_t 1 1 [0; 0; 1]; ex_t (-1) 1 [1; 0; 1]]].
Example C106_ex_intersection : mix 0 [ex_x1] [[ex_t 1 1 [0; 0; 1]]] = Ok ex_mix /\
  buchberger_algorithm Debug lex_cmp 30 ex_mix = Ok (ex_mix ++ [ex_x12]) /\ filter (free_below 1) (ex_mix ++ [ex_x12]) = [ex_x12].
Proof. repeat split; reflexivity. Qed.
(** (x_0^2, x_0 x_1) and (x_1) meet in (x_0 x_1) *)
Example C106_ex_intersection_revlex : mix 2 [[ex_t 1 1 [2]]; [ex_t 1 1 [1; 1]]] [ex_x1] =
    Ok [[ex_t 1 1 [2; 0; 1]]; [ex_t 1 1 [1; 1; 1]]; [ex_t 1 1 [0; 1]; ex_t (-1) 1 [0; 1; 1]]] /\
  buchberger_algorithm Debug revlex_cmp 30 [[ex_t 1 1 [2; 0; 1]]; [ex_t 1 1 [1; 1; 1]]; [ex_t 1 1 [0; 1]; ex_t (-1) 1 [0; 1; 1]]] =
    Ok [[ex_t 1 1 [2; 0; 1]]; [ex_t 1 1 [0; 1]; ex_t (-1) 1 [0; 1; 1]]; [ex_t 1 1 [1; 1]]].
Proof. split; reflexivity. Qed.
(** (x_1^2, x_1 x_2) : x_1 = (x_1, x_2) *)
Example C106_ex_quotient : (big <- mix 0 [ex_x11; ex_x12] [ex_x1] ;; buchberger_algorithm Debug lex_cmp 30 big) =
    Ok [[ex_t 1 1 [0; 1]; ex_t (-1) 1 [1; 1]]; ex_x11; ex_x12] /\
  divide Debug lex_cmp 20 ex_x11 [ex_x1] = Ok ([], [ex_x1]) /\ divide Debug lex_cmp 20 ex_x12 [ex_x1] = Ok ([], [[ex_t 1 1 [0; 0; 1]]]).
Proof. repeat split; reflexivity. Qed.

Print Assumptions C105_radical.
Print Assumptions C105_radical_vanishes.
Print Assumptions C105_saturation_lex.
Print Assumptions C105_saturation_revlex.
Print Assumptions C106_intersection_lex.
Print Assumptions C106_intersection_revlex.
Print Assumptions C106_quotient.
