(** * The polynomial operators compute in the polynomial ring (Debug profile, any exact field). *)
From Verif Require Import Base BaseLemmas FieldIface MDegModel PolyModel MonoSpec MDegProofs PolySpec.
From Coq Require Import Ring Field Setoid Morphisms FinFun.

Section PolyProofs.
Context {F : FieldImpl} {K : MathField} (FS : FieldSpec F K).
Add Field Kf2 : (kth K).
Add Ring Pr2 : (@poly_ring K) (setoid (@peq_equiv K) (@poly_ring_ext K)).
Notation term := (term F).
Notation poly := (poly F).
Notation den := (den FS).
Notation fwf := (fwf FS).

(** the mathematical term and polynomial a representation stands for *)
Definition it (t : term) : spoly K := pterm (den (coef t)) (canon (tdeg t)).
Definition ip (p : poly) : spoly K := map (fun t => (den (coef t), canon (tdeg t))) p.

Arguments ip : simpl never.
Arguments it : simpl never.

(** representation invariants *)
Definition twf0 (t : term) : Prop := fwf (coef t) /\ mwf (tdeg t).
Definition twf (t : term) : Prop := fwf (coef t) /\ den (coef t) <> k0 /\ mwf (tdeg t).
Definition pwf (p : poly) : Prop := Forall twf p /\ NoDup (map tdeg p).

Lemma twf_twf0 t : twf t -> twf0 t. Proof. intros (H1 & _ & H2). split; assumption. Qed.
Lemma Forall_twf0 p : Forall twf p -> Forall twf0 p.
Proof. apply Forall_impl. apply twf_twf0. Qed.
Lemma twf_split t : twf t <-> twf0 t /\ den (coef t) <> k0.
Proof. unfold twf, twf0. tauto. Qed.

Lemma ip_app p q : ip (p ++ q) = padd (ip p) (ip q). Proof. apply map_app. Qed.
Lemma ip_cons t p : ip (t :: p) = padd (it t) (ip p). Proof. reflexivity. Qed.
Lemma ip_single t : ip [t] = it t. Proof. reflexivity. Qed.
Lemma ip_nil : ip [] = pzero. Proof. reflexivity. Qed.
Lemma ev_it t phi : ev (it t) phi = kmul (den (coef t)) (phi (canon (tdeg t))).
Proof. unfold it, pterm. simpl. ring. Qed.

Lemma pwf_nil : pwf []. Proof. split; constructor. Qed.
Lemma pwf_single t : twf t -> pwf [t].
Proof. intros H. split; [constructor; [exact H|constructor]|]. constructor; [intros []|constructor]. Qed.
Lemma pwf_in p t : pwf p -> In t p -> twf t.
Proof. intros [H _] I. rewrite Forall_forall in H. auto. Qed.

(** ** clean polynomials and coefficients *)
Lemma canon_nodup (l : list term) : Forall twf0 l ->
  (NoDup (map tdeg l) <-> NoDup (map (fun t => canon (tdeg t)) l)).
Proof.
  induction l as [|t l IH]; intros H; simpl; [split; constructor|].
  inversion H as [|? ? H1 H2]; subst. specialize (IH H2). rewrite !NoDup_cons_iff, IH.
  assert (E : In (tdeg t) (map tdeg l) <-> In (canon (tdeg t)) (map (fun t => canon (tdeg t)) l)).
  { rewrite !in_map_iff. split; intros (s & Es & Is); exists s; split; auto.
    - rewrite Es. reflexivity.
    - rewrite Forall_forall in H2. apply canon_inj; auto; [apply (H2 s Is)|apply H1]. }
  rewrite E. reflexivity.
Qed.

Lemma ip_snd p : map snd (ip p) = map (fun t => canon (tdeg t)) p.
Proof. unfold ip. rewrite map_map. reflexivity. Qed.

Lemma pwf_nodup p : pwf p -> NoDup (map snd (ip p)).
Proof. intros [H1 H2]. rewrite ip_snd. apply canon_nodup; auto. apply Forall_twf0. exact H1. Qed.

Lemma pwf_coeff p t : pwf p -> In t p -> coeff (ip p) (canon (tdeg t)) = den (coef t).
Proof.
  intros H I. apply coeff_nodup; [apply pwf_nodup; exact H|].
  apply in_map_iff. exists t. split; auto.
Qed.
Lemma pwf_support p m : pwf p -> (coeff (ip p) m <> k0 <-> exists t, In t p /\ canon (tdeg t) = m).
Proof.
  intros H. split.
  - intros N. apply coeff_in in N. rewrite ip_snd in N. apply in_map_iff in N as (t & E & I). eauto.
  - intros (t & I & <-). rewrite pwf_coeff by assumption. apply (pwf_in p t H I).
Qed.
Lemma pwf_zero_iff p : pwf p -> (p = [] <-> peq (ip p) pzero).
Proof.
  intros H. split; [intros ->; reflexivity|]. intros E. destruct p as [|t p]; auto. exfalso.
  assert (N : coeff (ip (t :: p)) (canon (tdeg t)) <> k0).
  { apply pwf_support; auto. exists t. split; [left|]; reflexivity. }
  rewrite E in N. apply N. reflexivity.
Qed.

Lemma is_zero_spec t : fwf (coef t) -> (term_is_zero t = true <-> den (coef t) = k0).
Proof. intros H. apply (eqb0 _ _ FS). exact H. Qed.
Lemma is_zero_false t : fwf (coef t) -> (term_is_zero t = false <-> den (coef t) <> k0).
Proof.
  intros H. rewrite <- (is_zero_spec t H). destruct (term_is_zero t); split; congruence.
Qed.
Lemma it_zero t : fwf (coef t) -> term_is_zero t = true -> peq (it t) pzero.
Proof. intros H E. apply is_zero_spec in E; auto. unfold it. rewrite E. apply pterm_zero. Qed.

(** ** constructors *)
Lemma term_zero_wf : twf0 term_zero.
Proof. split; [apply (wf0 _ _ FS)|apply mwf_nil]. Qed.
Lemma k1_neq_0 : @k1 K <> k0. Proof. exact (Field_theory.F_1_neq_0 (kth K)). Qed.
Lemma term_one_wf : twf term_one.
Proof. split; [apply (wf1 _ _ FS)|]. split; [|apply mwf_nil]. simpl. rewrite (den1 _ _ FS). apply k1_neq_0. Qed.
Lemma it_term_zero : peq (it term_zero) pzero.
Proof. unfold it. simpl. rewrite (den0 _ _ FS). apply pterm_zero. Qed.
Lemma it_term_one : it term_one = pone.
Proof. unfold it. simpl. rewrite (den1 _ _ FS). reflexivity. Qed.

Lemma poly_from_term_ok t : twf0 t -> pwf (poly_from_term t) /\ peq (ip (poly_from_term t)) (it t).
Proof.
  intros H. unfold poly_from_term. destruct (term_is_zero t) eqn:E.
  - split; [apply pwf_nil|]. symmetry. apply it_zero; [apply H|exact E].
  - split; [|reflexivity]. apply pwf_single. apply twf_split. split; [exact H|].
    apply is_zero_false; [apply H|exact E].
Qed.
Lemma term_new_ok c d : fwf c -> mwf d -> twf0 (term_new c d) /\ peq (it (term_new c d)) (pterm (den c) (canon d)).
Proof.
  intros Hc Hd. unfold term_new. destruct (feqb c f0) eqn:E.
  - split; [apply term_zero_wf|]. rewrite it_term_zero. apply (eqb0 _ _ FS) in E; auto. rewrite E. symmetry. apply pterm_zero.
  - split; [split; assumption|reflexivity].
Qed.
Lemma poly_from_coef_ok c : fwf c -> pwf (poly_from_coef c) /\ peq (ip (poly_from_coef c)) (pterm (den c) mone).
Proof.
  intros Hc. unfold poly_from_coef. destruct (feqb c f0) eqn:E.
  - split; [apply pwf_nil|]. apply (eqb0 _ _ FS) in E; auto. rewrite E. symmetry. apply pterm_zero.
  - split; [|reflexivity]. apply pwf_single. split; [exact Hc|]. split; [|apply mwf_nil]. simpl.
    intros D. apply (eqb0 _ _ FS) in D; auto. congruence.
Qed.
Lemma term_var_ok i k : k <= 255 -> twf (term_var i k) /\ peq (it (term_var i k)) (pterm k1 (mvar i k)).
Proof.
  intros H. unfold term_var. destruct (Nat.eqb_spec k 0) as [->|N].
  - split; [apply term_one_wf|]. rewrite it_term_one. unfold pone, pterm.
    replace (mvar i 0) with mone; [reflexivity|].
    apply mono_ext. intros j. unfold mvar. rewrite mone_exp, canon_exp. unfold expo.
    destruct (lt_dec j i).
    + rewrite app_nth1 by (rewrite repeat_length; lia). rewrite nth_repeat. reflexivity.
    + rewrite app_nth2 by (rewrite repeat_length; lia). rewrite repeat_length.
      destruct (j - i) as [|[|]]; reflexivity.
  - split.
    + split; [apply (wf1 _ _ FS)|]. split; [|apply mdeg_var_wf; exact H]. simpl. rewrite (den1 _ _ FS). apply k1_neq_0.
    + unfold it. simpl. rewrite (den1 _ _ FS).
      replace (canon (mdeg_var i k)) with (mvar i k); [reflexivity|].
      apply mono_ext. intros j. unfold mvar. rewrite !canon_exp, mdeg_var_expo. unfold expo.
      destruct (Nat.eqb_spec j i) as [->|].
      * rewrite app_nth2 by (rewrite repeat_length; lia). rewrite repeat_length, Nat.sub_diag. reflexivity.
      * destruct (lt_dec j i).
        -- rewrite app_nth1 by (rewrite repeat_length; lia). apply nth_repeat.
        -- rewrite app_nth2 by (rewrite repeat_length; lia). rewrite repeat_length.
           destruct (j - i) as [|[|]] eqn:E; try reflexivity. lia.
Qed.
Lemma poly_new_ok ts : Forall twf0 ts ->
  Forall twf (poly_new ts) /\ peq (ip (poly_new ts)) (ip ts) /\ (NoDup (map tdeg ts) -> pwf (poly_new ts)).
Proof.
  intros H. assert (A : Forall twf (poly_new ts) /\ peq (ip (poly_new ts)) (ip ts)).
  { induction H as [|t ts Ht Hts [IH1 IH2]]; simpl; [split; [constructor|reflexivity]|].
    destruct (term_is_zero t) eqn:E; simpl.
    - split; [exact IH1|]. rewrite ip_cons, (it_zero t (proj1 Ht) E), IH2. ring.
    - split; [constructor; auto; apply twf_split; split; auto; apply is_zero_false; [apply Ht|exact E]|].
      rewrite !ip_cons, IH2. reflexivity. }
  destruct A as [A1 A2]. split; [exact A1|]. split; [exact A2|]. intros N. split; [exact A1|].
  clear -N. induction ts as [|t ts IH]; simpl in *; [constructor|]. inversion N as [|? ? N1 N2]; subst.
  destruct (term_is_zero t); simpl; auto. constructor; auto. intros I. apply N1.
  apply in_map_iff in I as (s & E & I). apply filter_In in I as [I _]. rewrite <- E. apply in_map. exact I.
Qed.

Ltac pring := try change (ip (@poly_zero F)) with (@pzero K); try change (ip (@nil term)) with (@pzero K); ring.

(** ** addition *)
Lemma term_add_ok a b : twf0 a -> twf0 b ->
  safe (term_add a b) (fun r => pwf r /\ peq (ip r) (padd (it a) (it b))).
Proof.
  intros Ha Hb. unfold term_add. destruct (term_is_zero a) eqn:Ea.
  { simpl. destruct (poly_from_term_ok b Hb) as [W E]. split; [exact W|].
    rewrite E, (it_zero a (proj1 Ha) Ea). ring. }
  destruct (term_is_zero b) eqn:Eb.
  { simpl. destruct (poly_from_term_ok a Ha) as [W E]. split; [exact W|].
    rewrite E, (it_zero b (proj1 Hb) Eb). ring. }
  destruct (mdeg_eqb (tdeg a) (tdeg b)) eqn:Ed.
  - apply mdeg_eqb_eq in Ed. eapply safe_bind; [apply (add_ok _ _ FS); [apply Ha|apply Hb]|].
    intros c [Wc Dc]. simpl. destruct (term_new_ok c (tdeg a) Wc (proj2 Ha)) as [W1 E1].
    destruct (poly_from_term_ok _ W1) as [W2 E2]. split; [exact W2|]. rewrite E2, E1, Dc. unfold it. rewrite Ed.
    apply pterm_add.
  - simpl. split; [|reflexivity]. split.
    + repeat constructor; try (apply Ha || apply Hb); apply is_zero_false; (apply Ha || apply Hb || assumption).
    + constructor; [|constructor; [intros []|constructor]].
      intros [E|[]]. symmetry in E. apply mdeg_eqb_eq in E. congruence.
Qed.

Lemma poly_add_term_ok p t : pwf p -> twf0 t ->
  safe (poly_add_term p t) (fun r => pwf r /\ peq (ip r) (padd (ip p) (it t))).
Proof.
  intros Hp Ht. unfold poly_add_term. destruct (poly_is_zero p) eqn:Ez.
  { destruct p; [|discriminate]. simpl. destruct (poly_from_term_ok t Ht) as [W E].
    split; [exact W|]. rewrite E, ip_nil. ring. }
  destruct (term_is_zero t) eqn:Et.
  { simpl. split; [exact Hp|]. rewrite (it_zero t (proj1 Ht) Et). ring. }
  destruct (position _ p) as [i|] eqn:Ep.
  - apply position_Some in Ep as (l1 & x & l2 & -> & <- & Ed & _). apply mdeg_eqb_eq in Ed.
    unfold vget. rewrite nth_error_app2, Nat.sub_diag by lia. simpl.
    assert (Wx : twf x) by (apply (pwf_in _ _ Hp); apply in_elt).
    destruct Hp as [Hp Nd]. rewrite map_app in Nd. simpl in Nd.
    apply Forall_app in Hp as [H1 H2]. inversion H2 as [|? ? _ H3]; subst.
    eapply safe_bind; [apply (add_ok _ _ FS); [apply Wx|apply Ht]|]. intros c [Wc Dc].
    assert (Eq : peq (ip (l1 ++ mkterm c (tdeg x) :: l2)) (padd (ip (l1 ++ x :: l2)) (it t))).
    { rewrite !ip_app, !ip_cons. unfold it at 1. simpl. rewrite Dc, pterm_add.
      unfold it. rewrite Ed. ring. }
    cbv beta zeta. destruct (term_is_zero (mkterm c (tdeg x))) eqn:Ez2; unfold safe.
    + rewrite list_remove_split. split.
      * split; [apply Forall_app; split; assumption|]. rewrite map_app. eapply NoDup_remove_1. exact Nd.
      * rewrite <- Eq, !ip_app, ip_cons, (it_zero (mkterm c (tdeg x)) Wc Ez2). ring.
    + rewrite list_set_split. split; [|exact Eq]. split.
      * apply Forall_app. split; [assumption|]. constructor; [|assumption]. split; [exact Wc|].
        split; [|apply Wx]. exact (proj1 (is_zero_false (mkterm c (tdeg x)) Wc) Ez2).
      * rewrite map_app. exact Nd.
  - simpl. apply position_None in Ep. destruct Hp as [Hp Nd]. split.
    + split.
      * apply Forall_app. split; [exact Hp|]. constructor; [|constructor]. apply twf_split. split; auto.
        apply is_zero_false; [apply Ht|exact Et].
      * rewrite map_app. simpl. apply nodup_snoc; [exact Nd|].
        intros I. apply in_map_iff in I as (s & E & I). rewrite Forall_forall in Ep. specialize (Ep s I).
        rewrite (proj2 (mdeg_eqb_eq _ _) E) in Ep. discriminate.
    + rewrite ip_app. reflexivity.
Qed.

Lemma poly_add_ok p q : pwf p -> Forall twf0 q ->
  safe (poly_add p q) (fun r => pwf r /\ peq (ip r) (padd (ip p) (ip q))).
Proof.
  intros Hp Hq. unfold poly_add. revert p Hp. induction Hq as [|t q Ht Hq IH]; intros p Hp; simpl.
  - split; [exact Hp|]. rewrite ip_nil. ring.
  - eapply safe_bind; [apply poly_add_term_ok; assumption|]. intros r [Wr Er].
    eapply safe_mono; [apply IH; exact Wr|]. intros r' [Wr' Er']. split; [exact Wr'|].
    rewrite Er', Er, ip_cons. ring.
Qed.

(** ** negation and subtraction *)
Lemma term_neg_ok t : twf0 t ->
  safe (term_neg t) (fun r => twf0 r /\ (twf t -> twf r) /\ tdeg r = tdeg t /\ peq (it r) (popp (it t))).
Proof.
  intros H. unfold term_neg. eapply safe_bind; [apply (neg_ok _ _ FS); apply H|]. intros c [Wc Dc]. simpl.
  split; [split; [exact Wc|apply H]|]. split; [|split; [reflexivity|]].
  - intros (_ & N & _). split; [exact Wc|]. split; [|apply H]. simpl. rewrite Dc. intros E. apply N.
    transitivity (kopp (kopp (den (coef t)))); [ring|]. rewrite E. ring.
  - unfold it. simpl. rewrite Dc. apply pterm_opp.
Qed.
Lemma poly_neg_ok p : Forall twf0 p ->
  safe (poly_neg p) (fun r => Forall twf0 r /\ (pwf p -> pwf r) /\ map tdeg r = map tdeg p /\ peq (ip r) (popp (ip p))).
Proof.
  unfold poly_neg. intros H.
  assert (G : safe (mapM term_neg p) (fun r => Forall twf0 r /\ (Forall twf p -> Forall twf r) /\ map tdeg r = map tdeg p /\ peq (ip r) (popp (ip p)))).
  { induction H as [|t p Ht Hp IH]; simpl.
    - split; [constructor|]. split; [constructor|]. split; reflexivity.
    - eapply safe_bind; [apply term_neg_ok; exact Ht|]. intros s (Ws & Ws' & Ds & Es).
      eapply safe_bind; [exact IH|]. intros r (Wr & Wr' & Dr & Er). simpl.
      split; [constructor; assumption|]. split; [|split].
      + intros X. inversion X; subst. constructor; auto.
      + rewrite Ds, Dr. reflexivity.
      + rewrite !ip_cons, Es, Er. ring. }
  eapply safe_mono; [exact G|]. intros r (W & W' & D & E). split; [exact W|]. split; [|split; assumption].
  intros [X Y]. split; [auto|]. rewrite D. exact Y.
Qed.
Lemma term_sub_ok a b : twf0 a -> twf0 b ->
  safe (term_sub a b) (fun r => pwf r /\ peq (ip r) (psub (it a) (it b))).
Proof.
  intros Ha Hb. unfold term_sub. eapply safe_bind; [apply term_neg_ok; exact Hb|]. intros nb (W & _ & _ & E).
  eapply safe_mono; [apply term_add_ok; assumption|]. intros r [Wr Er]. split; [exact Wr|].
  rewrite Er, E. reflexivity.
Qed.
Lemma term_sub_poly_ok t p : twf0 t -> pwf p ->
  safe (term_sub_poly t p) (fun r => pwf r /\ peq (ip r) (psub (it t) (ip p))).
Proof.
  intros Ht Hp. unfold term_sub_poly, term_add_poly.
  eapply safe_bind; [apply poly_neg_ok; apply Forall_twf0; apply Hp|].
  intros np (_ & W & _ & E). eapply safe_mono; [apply poly_add_term_ok; [auto|exact Ht]|].
  intros r [Wr Er]. split; [exact Wr|]. rewrite Er, E. ring.
Qed.
Lemma poly_sub_term_ok p t : pwf p -> twf0 t ->
  safe (poly_sub_term p t) (fun r => pwf r /\ peq (ip r) (psub (ip p) (it t))).
Proof.
  intros Hp Ht. unfold poly_sub_term. eapply safe_bind; [apply term_neg_ok; exact Ht|]. intros nt (W & _ & _ & E).
  eapply safe_mono; [apply poly_add_term_ok; assumption|]. intros r [Wr Er]. split; [exact Wr|].
  rewrite Er, E. reflexivity.
Qed.
Lemma poly_sub_ok p q : pwf p -> Forall twf0 q ->
  safe (poly_sub p q) (fun r => pwf r /\ peq (ip r) (psub (ip p) (ip q))).
Proof.
  intros Hp Hq. unfold poly_sub. eapply safe_bind; [apply poly_neg_ok; exact Hq|].
  intros nq (W & _ & _ & E). eapply safe_mono; [apply poly_add_ok; assumption|]. intros r [Wr Er]. split; [exact Wr|].
  rewrite Er, E. reflexivity.
Qed.

(** ** multiplication *)
Lemma k_integral (x y : K) : kmul x y = k0 -> x = k0 \/ y = k0.
Proof.
  intros E. destruct (kdec x k0) as [|N]; [left; assumption|right].
  transitivity (kmul (kinv x) (kmul x y)); [field; exact N|]. rewrite E. ring.
Qed.

Lemma term_mul_ok a b : twf0 a -> twf0 b ->
  safe (term_mul Debug a b) (fun r => twf0 r /\ peq (it r) (pmul (it a) (it b)) /\
    (twf a -> twf b -> twf r /\ canon (tdeg r) = mmul (canon (tdeg a)) (canon (tdeg b)))).
Proof.
  intros Ha Hb. unfold term_mul.
  destruct (term_is_zero a) eqn:Ea; simpl.
  { split; [apply term_zero_wf|]. split.
    - rewrite it_term_zero, (it_zero a (proj1 Ha) Ea). ring.
    - intros (_ & N & _). apply is_zero_spec in Ea; [contradiction|apply Ha]. }
  destruct (term_is_zero b) eqn:Eb; simpl.
  { split; [apply term_zero_wf|]. split.
    - rewrite it_term_zero, (it_zero b (proj1 Hb) Eb). ring.
    - intros _ (_ & N & _). apply is_zero_spec in Eb; [contradiction|apply Hb]. }
  eapply safe_bind; [apply (mul_ok _ _ FS); [apply Ha|apply Hb]|]. intros c [Wc Dc].
  eapply safe_bind; [apply mdeg_add_safe; [apply Ha|apply Hb]|]. intros d [Wd Ed]. simpl.
  split; [split; assumption|]. split.
  - unfold it. simpl. rewrite pterm_mul, Dc, Ed. reflexivity.
  - intros (_ & Na & _) (_ & Nb & _). split; [|exact Ed]. split; [exact Wc|]. split; [|exact Wd].
    simpl. rewrite Dc. intros E. apply k_integral in E. tauto.
Qed.

Lemma poly_mul_term_ok p t : Forall twf0 p -> twf0 t ->
  safe (poly_mul_term Debug p t) (fun r => Forall twf0 r /\ (pwf p -> pwf r) /\ peq (ip r) (pmul (ip p) (it t))).
Proof.
  intros Hp Ht. unfold poly_mul_term.
  destruct (term_is_zero t) eqn:Et; simpl.
  { split; [constructor|]. split; [intros; apply pwf_nil|]. rewrite (it_zero t (proj1 Ht) Et). change (ip poly_zero) with (@pzero K). ring. }
  assert (Wt : twf t) by (apply twf_split; split; auto; apply is_zero_false; [apply Ht|exact Et]).
  destruct (poly_is_zero p) eqn:Ez.
  { destruct p; [|discriminate]. simpl. split; [constructor|]. split; [intros; apply pwf_nil|]. change (ip poly_zero) with (@pzero K). change (ip []) with (@pzero K). ring. }
  assert (G : safe (mapM (fun s => term_mul Debug s t) p) (fun r => Forall twf0 r /\ peq (ip r) (pmul (ip p) (it t)) /\
     (Forall twf p -> Forall twf r /\ map (fun s => canon (tdeg s)) r = map (fun s => mmul (canon (tdeg s)) (canon (tdeg t))) p))).
  { clear Ez. induction Hp as [|s p Hs Hp IH]; simpl.
    - split; [constructor|]. split; [rewrite ip_nil; ring|]. intros _. split; [constructor|reflexivity].
    - eapply safe_bind; [apply term_mul_ok; [exact Hs|exact Ht]|]. intros s' (Ws & Es & Ws').
      eapply safe_bind; [exact IH|]. intros r (Wr & Er & Wr'). simpl.
      split; [constructor; assumption|]. split.
      + rewrite !ip_cons, Es, Er. ring.
      + intros X. inversion X as [|? ? X1 X2]; subst. destruct (Ws' X1 Wt) as [Y1 Y2]. destruct (Wr' X2) as [Z1 Z2].
        split; [constructor; assumption|]. rewrite Y2, Z2. reflexivity. }
  eapply safe_mono; [exact G|]. intros r (W & E & W'). split; [exact W|]. split; [|exact E].
  intros Pp. destruct (W' (proj1 Pp)) as [X Y]. split; [exact X|]. apply canon_nodup; [exact W|].
  rewrite Y, <- (map_map (fun s => canon (tdeg s)) (fun a => mmul a (canon (tdeg t)))).
  apply Injective_map_NoDup.
  - intros a b H. rewrite (mmul_comm a), (mmul_comm b) in H. eapply mmul_cancel_l. exact H.
  - rewrite <- ip_snd. apply pwf_nodup. exact Pp.
Qed.

Lemma poly_scale_ok p c : Forall twf0 p -> fwf c ->
  safe (poly_scale Debug p c) (fun r => Forall twf0 r /\ (pwf p -> pwf r) /\ peq (ip r) (pscale (den c) (ip p))).
Proof.
  intros Hp Hc. unfold poly_scale. eapply safe_mono; [apply poly_mul_term_ok; [exact Hp|split; [exact Hc|apply mwf_nil]]|].
  intros r (W & W' & E). split; [exact W|]. split; [exact W'|]. rewrite E. unfold pscale, it. simpl.
  rewrite tmul_pmul. change (canon mdeg_zero) with mone. ring.
Qed.

Lemma poly_mul_ok p q : Forall twf0 p -> pwf q ->
  safe (poly_mul Debug p q) (fun r => pwf r /\ peq (ip r) (pmul (ip p) (ip q))).
Proof.
  intros Hp Hq. unfold poly_mul, reduce_iter. destruct Hp as [|t p Ht Hp]; simpl.
  { split; [apply pwf_nil|]. pring. }
  assert (Fq : Forall twf0 q) by (apply Forall_twf0; apply Hq).
  assert (G : forall acc (A : spoly K), pwf acc -> peq (ip acc) A ->
     safe (foldM (fun acc y => b <- y ;; poly_add acc b) (map (fun t => term_mul_poly Debug t q) p) acc)
       (fun r => pwf r /\ peq (ip r) (padd A (pmul (ip p) (ip q))))).
  { clear t Ht. induction Hp as [|t p Ht Hp IH]; intros acc A Wa Ea; simpl.
    - split; [exact Wa|]. rewrite Ea. pring.
    - rewrite bind_assoc. eapply safe_bind; [apply (poly_mul_term_ok q t); assumption|]. intros b (Wb & Wb' & Eb).
      eapply safe_bind; [apply poly_add_ok; assumption|]. intros acc' [Wa' Ea'].
      eapply safe_mono; [apply (IH acc' (padd A (pmul (it t) (ip q))) Wa')|].
      + rewrite Ea', Ea, Eb. pring.
      + intros r [Wr Er]. split; [exact Wr|]. rewrite Er, ip_cons. pring. }
  rewrite bind_assoc. eapply safe_bind; [apply (poly_mul_term_ok q t); assumption|]. intros b (Wb & Wb' & Eb).
  rewrite bind_assoc. eapply safe_bind; [apply (G b _ (Wb' Hq) Eb)|]. intros r [Wr Er]. simpl.
  split; [exact Wr|]. rewrite Er, ip_cons. pring.
Qed.

Lemma poly_div_scalar_ok p c : Forall twf0 p -> fwf c -> den c <> k0 ->
  safe (poly_div_scalar Debug p c) (fun r => Forall twf0 r /\ (pwf p -> pwf r) /\ peq (ip r) (pscale (kinv (den c)) (ip p))).
Proof.
  intros Hp Hc Nc. unfold poly_div_scalar. eapply safe_bind; [apply (inv_ok _ _ FS); assumption|].
  intros i [Wi Di]. eapply safe_mono; [apply poly_scale_ok; assumption|]. rewrite Di. auto.
Qed.

(** ** term division *)
Lemma term_divides_ok a b : twf0 a -> twf0 b ->
  (term_divides a b = true <-> den (coef a) <> k0 /\ mdiv (canon (tdeg a)) (canon (tdeg b))).
Proof.
  intros Ha Hb. unfold term_divides. rewrite andb_true_iff, negb_true_iff, (is_zero_false a (proj1 Ha)).
  rewrite is_succ_spec by apply Ha. reflexivity.
Qed.

Lemma k_div_nonzero (x y : K) : x <> k0 -> y <> k0 -> kdiv x y <> k0.
Proof.
  intros Hx Hy E. apply Hx. transitivity (kmul (kdiv x y) y); [field; exact Hy|]. rewrite E. ring.
Qed.

(** for nonzero operands *)
Lemma term_try_div_ok a b : twf a -> twf b ->
  safe (term_try_div a b) (fun o => match o with
    | Some q => twf q /\ canon (tdeg a) = mmul (canon (tdeg b)) (canon (tdeg q)) /\
        den (coef q) = kdiv (den (coef a)) (den (coef b))
    | None => ~ mdiv (canon (tdeg b)) (canon (tdeg a))
    end).
Proof.
  intros Ha Hb. unfold term_try_div.
  rewrite (proj2 (is_zero_false a (proj1 Ha))) by apply Ha.
  rewrite (proj2 (is_zero_false b (proj1 Hb))) by apply Hb.
  eapply safe_bind; [apply (div_ok _ _ FS); [apply Ha|apply Hb|apply Hb]|]. intros c [Wc Dc].
  pose proof (checked_sub_spec (tdeg a) (tdeg b)) as C.
  destruct (mdeg_checked_sub (tdeg a) (tdeg b)) as [d|].
  - destruct C as (C2 & C3); [apply Ha|apply Hb|]. simpl. split; [|split; [exact C3|exact Dc]].
    split; [exact Wc|]. split; [|exact C2]. simpl. rewrite Dc. apply k_div_nonzero; [apply Ha|apply Hb].
  - simpl. apply C; [apply Ha|apply Hb].
Qed.

(** ** evaluation *)
Definition pt (x : list F) : nat -> K := fun i => den (nth i x f0).

Fixpoint kprod_up (g : nat -> K) (n : nat) : K :=
  match n with O => k1 | S n' => kmul (kprod_up g n') (g n') end.
Lemma kprod_up_front g n : kprod_up g (S n) = kmul (g 0) (kprod_up (fun i => g (S i)) n).
Proof. induction n as [|n IH]; [simpl; ring|]. change (kprod_up g (S (S n))) with (kmul (kprod_up g (S n)) (g (S n))). rewrite IH. simpl. ring. Qed.
Lemma mval_up_prod x m n : mval_up x m n = kprod_up (fun i => kpow (x i) (mexp m i)) n.
Proof. induction n as [|n IH]; simpl; [reflexivity|]. rewrite IH. reflexivity. Qed.
Lemma kprod_up_ext g h n : (forall i, i < n -> g i = h i) -> kprod_up g n = kprod_up h n.
Proof. induction n as [|n IH]; simpl; intros H; [reflexivity|]. rewrite IH, H by auto. reflexivity. Qed.

Lemma eval_fold (l : list nat) : forall (x : list F) acc, Forall fwf x -> u8s l -> length l <= length x -> fwf acc ->
  safe (foldM (fun acc (p : nat * F) => let '(deg, val) := p in
                v <- fpowi32 val (Z.of_nat deg) ;; fmul acc v) (combine l x) acc)
    (fun z => fwf z /\ den z = kmul (den acc) (kprod_up (fun i => kpow (pt x i) (expo l i)) (length l))).
Proof.
  induction l as [|d l IH]; intros x acc Hx Hl L Ha.
  - simpl. split; [exact Ha|]. ring.
  - destruct x as [|v x]; [simpl in L; lia|]. inversion Hx as [|? ? Hv Hx']; subst. inversion Hl as [|? ? Hd Hl']; subst.
    simpl foldM. apply (safe_bind _ _ (fun z => fwf z /\ den z = kmul (den acc) (kpow (den v) d))).
    + eapply safe_bind; [apply (pow_ok _ _ FS); [exact Hv|lia]|]. intros w [Ww Dw].
      rewrite Nat2Z.id in Dw. rewrite <- Dw. apply (mul_ok _ _ FS); [exact Ha|exact Ww].
    + intros acc' [Wa Da]. eapply safe_mono; [apply (IH x acc'); auto; simpl in L; lia|].
      intros z [Wz Dz]. split; [exact Wz|]. rewrite Dz, Da.
      change (length (d :: l)) with (S (length l)). rewrite kprod_up_front. unfold pt, expo. simpl. ring.
Qed.

Lemma term_eval_ok t x : twf0 t -> Forall fwf x -> length (tdeg t) <= length x ->
  safe (term_eval t x) (fun z => fwf z /\ den z = peval (pt x) (it t)).
Proof.
  intros Ht Hx L. unfold term_eval, mdeg_len. rewrite (proj2 (Nat.ltb_ge _ _) L).
  eapply safe_mono; [apply eval_fold; auto; apply Ht|]. intros z [Wz Dz]. split; [exact Wz|].
  rewrite Dz. unfold peval. rewrite ev_it. unfold mval. rewrite mlist_canon by apply Ht. rewrite mval_up_prod.
  f_equal. apply kprod_up_ext. intros i _. rewrite canon_exp. reflexivity.
Qed.

Lemma poly_eval_ok p x : Forall twf0 p -> Forall fwf x -> Forall (fun t => length (tdeg t) <= length x) p ->
  safe (poly_eval p x) (fun z => fwf z /\ den z = peval (pt x) (ip p)).
Proof.
  intros Hp Hx L. unfold poly_eval.
  assert (A : Forall (fun r => safe r fwf) (map (fun t => term_eval t x) p)).
  { apply Forall_map. rewrite Forall_forall in *. intros t I.
    eapply safe_mono; [apply term_eval_ok; auto; rewrite Forall_forall; auto|]. intros z [W _]. exact W. }
  eapply safe_mono; [apply (sum_ok _ _ FS); exact A|]. intros z (Wz & vs & E & Dz). split; [exact Wz|].
  rewrite Dz. clear A Dz Wz z. revert vs E. induction Hp as [|t p Ht Hp IH]; intros [|v vs] E; try discriminate.
  - reflexivity.
  - inversion L as [|? ? L1 L2]; subst. simpl in E. injection E as E1 E2.
    rewrite ip_cons. unfold peval, padd. rewrite ev_app. fold (peval (pt x) (ip p)).
    unfold ksum in *. cbn [map fold_right]. rewrite (IH L2 vs E2). f_equal.
    apply (safe_val _ _ _ (term_eval_ok t x Ht Hx L1)). exact E1.
Qed.

(** a point with too few coordinates *)
Lemma poly_eval_short p x : Forall twf0 p -> Forall fwf x -> Exists (fun t => length x < length (tdeg t)) p ->
  poly_eval p x = Panic Explicit \/ poly_eval p x = Panic Overflow.
Proof.
  intros Hp Hx Ex. unfold poly_eval.
  assert (G : exists vs k rest, Forall fwf vs /\ map (fun t => term_eval t x) p = map Ok vs ++ Panic k :: rest /\ (k = Explicit \/ k = Overflow)).
  { induction Hp as [|t p Ht Hp IH]; [inversion Ex|]. simpl.
    destruct (le_lt_dec (length (tdeg t)) (length x)) as [Le|Lt].
    - pose proof (term_eval_ok t x Ht Hx Le) as Sf.
      destruct (term_eval t x) as [z|[]|] eqn:Et; simpl in Sf; try contradiction.
      + inversion Ex as [? ? B|? ? B]; subst; [lia|]. destruct (IH B) as (vs & k & rest & Hv & E & Hk).
        exists (z :: vs), k, rest. split; [constructor; [apply Sf|exact Hv]|]. split; [|exact Hk]. simpl. rewrite E. reflexivity.
      + exists [], Overflow, (map (fun t => term_eval t x) p). split; [constructor|]. split; [reflexivity|auto].
    - exists [], Explicit, (map (fun t => term_eval t x) p). split; [constructor|]. split; [|auto].
      simpl. f_equal. unfold term_eval, mdeg_len. rewrite (proj2 (Nat.ltb_lt _ _) Lt). reflexivity. }
  destruct G as (vs & k & rest & Hv & E & Hk). rewrite E.
  destruct (sum_panic _ _ FS vs k rest Hv) as [->| ->]; auto. destruct Hk as [->| ->]; auto.
Qed.

End PolyProofs.
Global Arguments ip : simpl never.
Global Arguments it : simpl never.
