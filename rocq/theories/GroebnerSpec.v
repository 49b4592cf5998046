(** * Leading monomials, standard representations, Buchberger's theorem.

    Pure mathematics over [PolySpec]; nothing here mentions the code. *)
From Verif Require Import Base FieldIface MonoSpec PolySpec.
From Coq Require Import Ring Field Setoid Morphisms.

Section Groebner.
Context {K : MathField}.
Add Field Kf4 : (kth K).
Add Ring Pr4 : (@poly_ring K) (setoid (@peq_equiv K) (@poly_ring_ext K)).
Context (lt : mono -> mono -> Prop) (L : mono_order_laws lt).
Notation spoly := (spoly K).
Implicit Types (p q f g h r : spoly) (m a b l : mono) (G H : list spoly).

Lemma lt_irrefl a : ~ lt a a. Proof. apply L. Qed.
Lemma lt_trans a b c : lt a b -> lt b c -> lt a c. Proof. apply L. Qed.
Lemma lt_total a b : a = b \/ lt a b \/ lt b a. Proof. apply L. Qed.
Lemma lt_mul a b c : lt a b -> lt (mmul c a) (mmul c b). Proof. apply L. Qed.
Lemma lt_one a : a <> mone -> lt mone a. Proof. apply L. Qed.
Lemma lt_wf n : well_founded (fun a b => mvars n a /\ mvars n b /\ lt a b). Proof. apply L. Qed.

Definition mle a b : Prop := a = b \/ lt a b.
Lemma mle_refl a : mle a a. Proof. left. reflexivity. Qed.
Lemma mle_trans a b c : mle a b -> mle b c -> mle a c.
Proof. intros [->|H1] [->|H2]; unfold mle; auto. right. eapply lt_trans; eassumption. Qed.
Lemma mle_lt_trans a b c : mle a b -> lt b c -> lt a c.
Proof. intros [->|H1] H2; auto. eapply lt_trans; eassumption. Qed.
Lemma lt_mle_trans a b c : lt a b -> mle b c -> lt a c.
Proof. intros H1 [<-|H2]; auto. eapply lt_trans; eassumption. Qed.
Lemma mle_mul a b c : mle a b -> mle (mmul c a) (mmul c b).
Proof. intros [->|H]; [left; reflexivity|right; apply lt_mul; exact H]. Qed.
Lemma mle_antisym a b : mle a b -> mle b a -> a = b.
Proof. intros [->|H1] [E|H2]; auto. exfalso. apply (lt_irrefl a). eapply lt_trans; eassumption. Qed.
Lemma mle_not_lt a b : mle a b -> ~ lt b a.
Proof. intros H1 H2. apply (lt_irrefl a). eapply mle_lt_trans; eassumption. Qed.
Lemma lt_mul_inv a b c : lt (mmul c a) (mmul c b) -> lt a b.
Proof.
  intros H. destruct (lt_total a b) as [->|[E|E]]; auto.
  - exfalso. apply (lt_irrefl _ H).
  - exfalso. apply (lt_irrefl (mmul c a)). eapply lt_trans; [exact H|]. apply lt_mul. exact E.
Qed.
Lemma mdiv_mle a b : mdiv a b -> mle a b.
Proof.
  intros H. apply mdiv_iff in H as (c & ->). rewrite <- (mmul_1_r a) at 1. apply mle_mul.
  destruct (mono_dec c mone) as [->|N]; [left; reflexivity|right; apply lt_one; exact N].
Qed.

(** ** leading monomials *)
Definition is_lm p m : Prop := coeff p m <> k0 /\ forall m', coeff p m' <> k0 -> mle m' m.

Global Instance is_lm_proper : Proper (peq ==> eq ==> iff) is_lm.
Proof.
  intros p q E m m' <-. unfold is_lm. split; intros [H1 H2]; split.
  - rewrite <- E; exact H1.
  - intros x Hx. apply H2. rewrite E. exact Hx.
  - rewrite E; exact H1.
  - intros x Hx. apply H2. rewrite <- E. exact Hx.
Qed.
Lemma is_lm_unique p a b : is_lm p a -> is_lm p b -> a = b.
Proof. intros [H1 H2] [H3 H4]. apply mle_antisym; auto. Qed.

(** the support is a finite list, on which being nonzero is decidable *)
Definition support p : list mono :=
  filter (fun m => if kdec (coeff p m) k0 then false else true) (map snd p).
Lemma support_iff p m : In m (support p) <-> coeff p m <> k0.
Proof.
  unfold support. rewrite filter_In. destruct (kdec (coeff p m) k0) as [E|N]; split.
  - intros [_ X]; discriminate.
  - intros X; contradiction.
  - auto.
  - intros _. split; [apply coeff_in; exact N|reflexivity].
Qed.
Lemma list_max (l : list mono) : l <> [] -> exists m, In m l /\ forall x, In x l -> mle x m.
Proof.
  induction l as [|y l IH]; intros N; [congruence|]. destruct l as [|z l].
  - exists y. split; [left; reflexivity|]. intros x [->|[]]. apply mle_refl.
  - destruct IH as (m & I & H); [discriminate|]. destruct (lt_total y m) as [->|[E|E]].
    + exists m. split; [left; reflexivity|]. intros x [->|X]; [apply mle_refl|auto].
    + exists m. split; [right; exact I|]. intros x [->|X]; [right; exact E|auto].
    + exists y. split; [left; reflexivity|]. intros x [->|X]; [apply mle_refl|].
      right. eapply mle_lt_trans; [apply H; exact X|exact E].
Qed.
Lemma lm_exists p : ~ peq p pzero -> exists m, is_lm p m.
Proof.
  intros N. destruct (list_max (support p)) as (m & I & H).
  - intros E. apply N. apply peq_coeff. intros m. rewrite coeff_zero.
    destruct (kdec (coeff p m) k0) as [|X]; auto. apply support_iff in X. rewrite E in X. contradiction.
  - exists m. split; [apply support_iff; exact I|]. intros x X. apply H. apply support_iff. exact X.
Qed.
Lemma lm_nonzero p m : is_lm p m -> ~ peq p pzero.
Proof. intros [H _] E. apply H. rewrite E. reflexivity. Qed.
Lemma zero_or_lm p : peq p pzero \/ exists m, is_lm p m.
Proof.
  destruct (peq_zero_dec p) as [E|(m & N)]; [left; exact E|right]. apply lm_exists.
  intros E. apply N. rewrite E. reflexivity.
Qed.
Lemma is_lm_vars n p m : svars n p -> is_lm p m -> mvars n m.
Proof. intros V [H _]. apply V. exact H. Qed.

Lemma tmul_le c a p m x : is_lm p m -> coeff (tmul c a p) x <> k0 -> mle x (mmul a m).
Proof. intros [_ H] X. apply coeff_tmul_inv in X as (_ & b & -> & N). apply mle_mul. apply H. exact N. Qed.
Lemma is_lm_tmul c a p m : c <> k0 -> is_lm p m -> is_lm (tmul c a p) (mmul a m).
Proof.
  intros Nc Hm. split.
  - rewrite coeff_tmul. intros E. destruct Hm as [H _]. apply H.
    transitivity (kmul (kinv c) (kmul c (coeff p m))); [field; exact Nc|]. rewrite E. ring.
  - intros x X. eapply tmul_le; eassumption.
Qed.

(** a nonzero value of a functional comes from a monomial of the support *)
Lemma fsumm_nonzero (l : list mono) (phi : mono -> K) : fsumm l phi <> k0 -> exists m, In m l /\ phi m <> k0.
Proof.
  induction l as [|x l IH]; simpl; intros N; [congruence|].
  destruct (kdec (phi x) k0) as [E|X].
  - destruct IH as (m & I & H).
    + intros Z. apply N. rewrite E, Z. ring.
    + exists m. split; auto.
  - exists x. split; auto.
Qed.
Lemma ev_nonzero p phi : ev p phi <> k0 -> exists m, coeff p m <> k0 /\ phi m <> k0.
Proof.
  intros N. rewrite (ev_coeff p phi (nodup mono_dec (map snd p))) in N.
  - apply fsumm_nonzero in N as (m & _ & H). exists m. split; intros E; apply H; rewrite E; ring.
  - apply NoDup_nodup.
  - intros m I. apply nodup_In. exact I.
Qed.
Lemma coeff_mul_inv p q m : coeff (pmul p q) m <> k0 ->
  exists a b, m = mmul a b /\ coeff p a <> k0 /\ coeff q b <> k0.
Proof.
  rewrite coeff_mul. intros N. apply ev_nonzero in N as (a & Ha & N). apply ev_nonzero in N as (b & Hb & N).
  exists a, b. destruct (mono_dec (mmul a b) m); [auto|congruence].
Qed.
Lemma svars_mul n p q : svars n p -> svars n q -> svars n (pmul p q).
Proof. intros Hp Hq m X. apply coeff_mul_inv in X as (a & b & -> & Ha & Hb). apply mvars_mul. auto. Qed.
Lemma svars_add n p q : svars n p -> svars n q -> @svars K n (padd p q).
Proof.
  intros Hp Hq m X. rewrite coeff_add in X. destruct (kdec (coeff p m) k0) as [E|N]; auto.
  apply Hq. intros Z. apply X. rewrite E, Z. ring.
Qed.
Lemma svars_opp n p : svars n p -> svars n (popp p).
Proof. intros Hp m X. rewrite coeff_opp in X. apply Hp. intros Z. apply X. rewrite Z. ring. Qed.
Lemma svars_sub n p q : svars n p -> svars n q -> svars n (psub p q).
Proof. intros. apply svars_add; [|apply svars_opp]; assumption. Qed.
Lemma svars_tmul n c a p : mvars n a -> svars n p -> svars n (tmul c a p).
Proof. intros Ha Hp m X. apply coeff_tmul_inv in X as (_ & b & -> & N). apply mvars_mul. auto. Qed.
Lemma svars_pterm n (c : K) a : mvars n a -> svars n (pterm c a).
Proof. intros Ha m X. rewrite coeff_pterm in X. destruct (mono_dec a m) as [<-|]; [exact Ha|congruence]. Qed.
Lemma svars_zero n : svars n (@pzero K). Proof. intros m X. rewrite coeff_zero in X. congruence. Qed.

Lemma is_lm_mul_coeff p q a b : is_lm p a -> is_lm q b ->
  is_lm (pmul p q) (mmul a b) /\ coeff (pmul p q) (mmul a b) = kmul (coeff p a) (coeff q b).
Proof.
  intros Ha Hb.
  set (p' := psub p (pterm (coeff p a) a)).
  assert (P' : forall m, coeff p' m <> k0 -> lt m a).
  { intros m X. unfold p' in X. rewrite coeff_sub, coeff_pterm in X. destruct (mono_dec a m) as [->|N].
    - exfalso. apply X. ring.
    - destruct Ha as [_ Ha]. destruct (Ha m) as [E|E]; auto; [|congruence].
      intros Z. apply X. rewrite Z. ring. }
  assert (E : peq (pmul p q) (padd (tmul (coeff p a) a q) (pmul p' q))).
  { rewrite tmul_pmul. unfold p'. ring. }
  assert (Z : coeff (pmul p' q) (mmul a b) = k0).
  { destruct (kdec (coeff (pmul p' q) (mmul a b)) k0) as [|N]; auto. exfalso.
    apply coeff_mul_inv in N as (x & y & Exy & Hx & Hy). apply P' in Hx. apply Hb in Hy.
    apply (lt_irrefl (mmul a b)). rewrite Exy at 1. apply mle_lt_trans with (mmul x b).
    - apply mle_mul. exact Hy.
    - rewrite (mmul_comm x), (mmul_comm a). apply lt_mul. exact Hx. }
  split; [split|].
  - rewrite E, coeff_add, Z. intros X.
    apply (proj1 (is_lm_tmul (coeff p a) a q b (proj1 Ha) Hb)). rewrite <- X. ring.
  - intros m N. apply coeff_mul_inv in N as (x & y & -> & Hx & Hy). apply Ha in Hx. apply Hb in Hy.
    apply mle_trans with (mmul x b); [apply mle_mul; exact Hy|].
    rewrite (mmul_comm x), (mmul_comm a). apply mle_mul. exact Hx.
  - rewrite E, coeff_add, Z, coeff_tmul. ring.
Qed.
Lemma is_lm_mul p q a b : is_lm p a -> is_lm q b -> is_lm (pmul p q) (mmul a b).
Proof. intros Ha Hb. apply is_lm_mul_coeff; assumption. Qed.
Lemma coeff_mul_lm p q a b : is_lm p a -> is_lm q b -> coeff (pmul p q) (mmul a b) = kmul (coeff p a) (coeff q b).
Proof. intros Ha Hb. apply is_lm_mul_coeff; assumption. Qed.

(** normal form of a polynomial as a list of its nonzero coefficients *)
Lemma pnorm q : exists q', peq q' q /\ forall c m, In (c, m) q' -> coeff q m = c /\ c <> k0.
Proof.
  set (l := nodup mono_dec (support q)).
  exists (map (fun m => (coeff q m, m)) l). split.
  - apply peq_coeff. intros m. destruct (in_dec mono_dec m l) as [I|N].
    + apply coeff_nodup; [rewrite map_map; simpl; rewrite map_id; apply NoDup_nodup|].
      apply in_map_iff. exists m. auto.
    + rewrite coeff_notin; [|rewrite map_map; simpl; rewrite map_id; exact N].
      destruct (kdec (coeff q m) k0) as [|X]; auto. exfalso. apply N. apply nodup_In. apply support_iff. exact X.
  - intros c m I. apply in_map_iff in I as (x & E & I). injection E as <- <-. split; [reflexivity|].
    apply nodup_In in I. apply support_iff in I. exact I.
Qed.

(** ** standard representations *)
Record entry : Type := mkentry { ec : K; ea : mono; eg : spoly; el : mono }.
Definition eval_entry (e : entry) : spoly := tmul (ec e) (ea e) (eg e).
Definition esum (es : list entry) : spoly := psum (map eval_entry es).
Definition etop (e : entry) : mono := mmul (ea e) (el e).
Definition eok G (n : nat) (e : entry) : Prop := In (eg e) G /\ is_lm (eg e) (el e) /\ mvars n (ea e).

Definition rep G (n : nat) (P : mono -> Prop) f : Prop :=
  exists es, Forall (fun e => eok G n e /\ P (etop e)) es /\ peq f (esum es).

Global Instance rep_proper G n P : Proper (peq ==> iff) (rep G n P).
Proof. intros p q E. split; intros (es & X & Y); exists es; split; auto; [rewrite <- E|rewrite E]; exact Y. Qed.

Lemma esum_app es es' : peq (esum (es ++ es')) (padd (esum es) (esum es')).
Proof.
  unfold esum. induction es as [|e es IH]; simpl; [ring|]. rewrite IH. ring.
Qed.
Lemma esum_cons e es : esum (e :: es) = padd (eval_entry e) (esum es). Proof. reflexivity. Qed.

Lemma rep_zero G n P : rep G n P pzero.
Proof. exists []. split; [constructor|reflexivity]. Qed.
Lemma rep_add G n P p q : rep G n P p -> rep G n P q -> rep G n P (padd p q).
Proof.
  intros (es & X & Y) (es' & X' & Y'). exists (es ++ es'). split; [apply Forall_app; auto|].
  rewrite esum_app, Y, Y'. reflexivity.
Qed.
Lemma rep_mono G n n' (P P' : mono -> Prop) p : (n <= n')%nat -> (forall m, P m -> P' m) -> rep G n P p -> rep G n' P' p.
Proof.
  intros Hn HP (es & X & Y). exists es. split; auto. eapply Forall_impl; [|exact X].
  intros e ((I & Lm & V) & T). split; auto. split; auto. split; auto. apply (mvars_le n); auto.
Qed.
Lemma rep_incl G G' n P p : incl G G' -> rep G n P p -> rep G' n P p.
Proof.
  intros HG (es & X & Y). exists es. split; auto. eapply Forall_impl; [|exact X].
  intros e ((I & Lm & V) & T). split; auto. split; auto.
Qed.
Lemma rep_tmul G n (P P' : mono -> Prop) c a p : mvars n a -> (forall m, P m -> P' (mmul a m)) ->
  rep G n P p -> rep G n P' (tmul c a p).
Proof.
  intros Va HP (es & X & Y). exists (map (fun e => mkentry (kmul c (ec e)) (mmul a (ea e)) (eg e) (el e)) es). split.
  - apply Forall_map. eapply Forall_impl; [|exact X]. intros e ((I & Lm & V) & T). split.
    + split; auto. split; auto. simpl. apply mvars_mul. auto.
    + unfold etop in *. simpl. rewrite <- mmul_assoc. apply HP. exact T.
  - rewrite Y. clear. induction es as [|e es IH]; [reflexivity|].
    simpl map. rewrite !esum_cons, tmul_add, IH. apply padd_proper; [|reflexivity]. unfold eval_entry. simpl. apply tmul_tmul.
Qed.
Lemma rep_opp G n P p : rep G n P p -> rep G n P (popp p).
Proof.
  intros H. assert (E : peq (popp p) (tmul (kopp k1) mone p)).
  { rewrite tmul_opp_coef, tmul_one. reflexivity. }
  rewrite E. eapply rep_tmul; [apply mvars_one| |exact H]. intros m X. rewrite mmul_1_l. exact X.
Qed.
Lemma rep_single G n (P : mono -> Prop) c a g l : In g G -> is_lm g l -> mvars n a -> P (mmul a l) -> rep G n P (tmul c a g).
Proof.
  intros I Lm V X. exists [mkentry c a g l]. split.
  - constructor; [|constructor]. split; [split; auto|exact X].
  - rewrite esum_cons. unfold esum. simpl. unfold eval_entry. simpl. ring.
Qed.
(** polynomial multipliers *)
Lemma rep_pmul G n (P : mono -> Prop) q g l : In g G -> is_lm g l ->
  (forall a, coeff q a <> k0 -> mvars n a /\ P (mmul a l)) -> rep G n P (pmul q g).
Proof.
  intros I Lm H. destruct (pnorm q) as (q' & E & Hq). rewrite <- E.
  assert (X : forall c a, In (c, a) q' -> mvars n a /\ P (mmul a l)).
  { intros c a Ia. apply H. destruct (Hq c a Ia) as [-> N]. exact N. }
  clear E Hq H. induction q' as [|[c a] q' IH]; [apply rep_zero|].
  assert (E : peq (pmul ((c, a) :: q') g) (padd (tmul c a g) (pmul q' g))).
  { rewrite tmul_pmul. rewrite cons_padd. ring. }
  rewrite E. apply rep_add.
  - destruct (X c a) as [V T]; [left; reflexivity|]. eapply rep_single; eassumption.
  - apply IH. intros c' a' Ia. apply (X c' a'). right. exact Ia.
Qed.

Lemma rep_ideal G n P f : rep G n P f -> in_ideal G f.
Proof.
  intros (es & X & ->). induction X as [|e es ((I & _) & _) _ IH]; [apply in_ideal_zero|].
  rewrite esum_cons. apply in_ideal_add; auto. apply in_ideal_tmul. apply in_ideal_gen. exact I.
Qed.
Lemma ideal_rep G f : in_ideal G f -> exists n0, forall n, (n0 <= n)%nat -> rep G n (fun _ => True) f.
Proof.
  intros (qs & Len & E).
  assert (G0 : forall G', incl G' G -> forall qs, length qs = length G' ->
     exists n0, forall n, (n0 <= n)%nat -> rep G n (fun _ => True) (lincomb qs G')).
  { clear - L. induction G' as [|g G' IH]; intros HI [|q qs] Len; try discriminate.
    - exists 0. intros. apply rep_zero.
    - destruct (IH (fun x I => HI x (or_intror I)) qs) as (n0 & H0); [simpl in Len; lia|].
      destruct (svars_exists q) as (n1 & H1). exists (Nat.max n0 n1). intros n Hn. simpl. apply rep_add; [|apply H0; lia].
      destruct (zero_or_lm g) as [Z|(l & Lm)].
      + assert (X : peq (pmul q g) pzero) by (rewrite Z; ring). rewrite X. apply rep_zero.
      + apply (rep_pmul G n _ q g l); auto; [apply HI; left; reflexivity|].
        intros a Ha. split; auto. apply (mvars_le n1); [lia|]. apply H1. exact Ha. }
  destruct (G0 G (fun x I => I) qs Len) as (n0 & H0). exists n0. intros n Hn. rewrite E. apply H0. exact Hn.
Qed.

Lemma rep_support G n P f m : rep G n P f -> coeff f m <> k0 -> exists b, P b /\ mle m b.
Proof.
  intros (es & X & E) N. rewrite E in N. clear E. induction X as [|e es ((I & Lm & V) & T) X IH].
  - exfalso. apply N. reflexivity.
  - rewrite esum_cons, coeff_add in N. destruct (kdec (coeff (eval_entry e) m) k0) as [Z|Y].
    + apply IH. intros W. apply N. rewrite Z, W. ring.
    + exists (etop e). split; [exact T|]. eapply tmul_le; eassumption.
Qed.
Lemma rep_lt_coeff G n b f : rep G n (fun m => lt m b) f -> coeff f b = k0.
Proof.
  intros R. destruct (kdec (coeff f b) k0) as [|N]; auto. exfalso.
  destruct (rep_support _ _ _ _ _ R N) as (x & X & Y). apply (mle_not_lt _ _ Y X).
Qed.

(** ** S-polynomials *)
Definition spol g l h l' : spoly :=
  psub (tmul (kinv (coeff g l)) (mquo (mlcm l l') l) g) (tmul (kinv (coeff h l')) (mquo (mlcm l l') l') h).

Lemma spol_below g l h l' m : is_lm g l -> is_lm h l' -> coeff (spol g l h l') m <> k0 -> lt m (mlcm l l').
Proof.
  intros Hg Hh N. set (b := mlcm l l') in *.
  assert (E1 : mmul (mquo b l) l = b) by (rewrite mmul_comm; apply mmul_quo; apply mdiv_lcm_l).
  assert (E2 : mmul (mquo b l') l' = b) by (rewrite mmul_comm; apply mmul_quo; apply mdiv_lcm_r).
  assert (Le : mle m b).
  { unfold spol in N. rewrite coeff_sub in N. fold b in N.
    destruct (kdec (coeff (tmul (kinv (coeff g l)) (mquo b l) g) m) k0) as [Z|Y].
    - destruct (kdec (coeff (tmul (kinv (coeff h l')) (mquo b l') h) m) k0) as [Z'|Y'].
      + exfalso. apply N. rewrite Z, Z'. ring.
      + rewrite <- E2. eapply tmul_le; eassumption.
    - rewrite <- E1. eapply tmul_le; eassumption. }
  destruct Le as [->|X]; auto. exfalso. apply N. unfold spol. fold b. rewrite coeff_sub.
  pose proof (coeff_tmul (kinv (coeff g l)) (mquo b l) g l) as C1. rewrite E1 in C1. rewrite C1.
  pose proof (coeff_tmul (kinv (coeff h l')) (mquo b l') h l') as C2. rewrite E2 in C2. rewrite C2.
  field. split; [apply Hh|apply Hg].
Qed.
Lemma spol_ideal G g l h l' : In g G -> In h G -> in_ideal G (spol g l h l').
Proof. intros Ig Ih. apply in_ideal_sub; apply in_ideal_tmul; apply in_ideal_gen; assumption. Qed.
Lemma spol_vars n g l h l' : svars n g -> svars n h -> is_lm g l -> is_lm h l' -> svars n (spol g l h l').
Proof.
  intros Vg Vh Hg Hh. pose proof (is_lm_vars n g l Vg Hg). pose proof (is_lm_vars n h l' Vh Hh).
  apply svars_sub; apply svars_tmul; auto; apply mvars_quo; apply mvars_lcm; assumption.
Qed.
Lemma spol_sym g l h l' : peq (spol g l h l') (popp (spol h l' g l)).
Proof. unfold spol. rewrite (mlcm_comm l' l). ring. Qed.
Lemma spol_self g l : peq (spol g l g l) pzero.
Proof. unfold spol. ring. Qed.

(** ** Buchberger's theorem *)
Definition groebner G : Prop :=
  forall f m, in_ideal G f -> is_lm f m -> exists g l, In g G /\ is_lm g l /\ mdiv l m.

Definition spairs_ok G (n : nat) : Prop :=
  forall g l h l', In g G -> In h G -> is_lm g l -> is_lm h l' ->
    rep G n (fun m => lt m (mlcm l l')) (spol g l h l').

(** the multiple a1 g1 / lc1 - a2 g2 / lc2 of an S-polynomial *)
Lemma spol_multiple G n g l h l' a a' b : spairs_ok G n ->
  In g G -> In h G -> is_lm g l -> is_lm h l' -> mmul a l = b -> mmul a' l' = b -> mvars n b ->
  rep G n (fun m => lt m b) (psub (tmul (kinv (coeff g l)) a g) (tmul (kinv (coeff h l')) a' h)).
Proof.
  intros SP Ig Ih Hg Hh E E' V.
  assert (D : mdiv (mlcm l l') b).
  { apply mlcm_least; [rewrite <- E|rewrite <- E']; apply mdiv_mul_r. }
  apply mdiv_iff in D as (w & Ew). 
  assert (Ea : a = mmul w (mquo (mlcm l l') l)).
  { apply (mmul_cancel_l l). rewrite (mmul_comm l a), E, Ew, (mmul_comm w), mmul_assoc.
    rewrite (mmul_quo l (mlcm l l')) by apply mdiv_lcm_l. reflexivity. }
  assert (Ea' : a' = mmul w (mquo (mlcm l l') l')).
  { apply (mmul_cancel_l l'). rewrite (mmul_comm l' a'), E', Ew, (mmul_comm w), mmul_assoc.
    rewrite (mmul_quo l' (mlcm l l')) by apply mdiv_lcm_r. reflexivity. }
  assert (X : peq (psub (tmul (kinv (coeff g l)) a g) (tmul (kinv (coeff h l')) a' h)) (tmul k1 w (spol g l h l'))).
  { unfold spol, psub. rewrite tmul_add, tmul_opp, !tmul_tmul, <- Ea, <- Ea'.
    assert (Y : forall c : K, kmul k1 c = c) by (intros; ring). rewrite !Y. reflexivity. }
  rewrite X. eapply rep_tmul; [| |apply SP; eassumption].
  - rewrite Ew in V. apply mvars_mul in V. apply V.
  - intros m Hm. rewrite Ew, (mmul_comm (mlcm l l')). apply lt_mul. exact Hm.
Qed.

Lemma top_step G n b : spairs_ok G n -> mvars n b -> forall k tops f low, length tops = k ->
  Forall (fun e => eok G n e /\ etop e = b) tops -> rep G n (fun m => lt m b) low ->
  peq f (padd (esum tops) low) -> coeff f b = k0 -> rep G n (fun m => lt m b) f.
Proof.
  intros SP V. induction k as [|k IH]; intros tops f low Len Ht Hl E Z.
  - destruct tops; [|discriminate]. rewrite E. change (esum []) with (@pzero K).
    assert (X : peq (padd pzero low) low) by ring. rewrite X. exact Hl.
  - destruct tops as [|e1 tops]; [discriminate|]. inversion Ht as [|? ? [(I1 & L1 & V1) T1] Ht']; subst.
    destruct tops as [|e2 tops].
    + (* a single top entry: its coefficient must vanish *)
      rewrite esum_cons in E. change (esum []) with (@pzero K) in E.
      assert (C : kmul (ec e1) (coeff (eg e1) (el e1)) = k0).
      { rewrite E in Z. rewrite !coeff_add, coeff_zero, (rep_lt_coeff _ _ _ _ Hl) in Z.
        unfold eval_entry, etop in Z. rewrite coeff_tmul in Z. rewrite <- Z. ring. }
      assert (C0 : ec e1 = k0).
      { transitivity (kmul (kmul (ec e1) (coeff (eg e1) (el e1))) (kinv (coeff (eg e1) (el e1)))).
        - field. apply L1.
        - rewrite C. ring. }
      rewrite E. unfold eval_entry. rewrite C0, tmul_zero.
      assert (X : peq (padd (padd pzero pzero) low) low) by ring. rewrite X. exact Hl.
    + inversion Ht' as [|? ? [(I2 & L2 & V2) T2] Ht'']; subst.
      (* move the first entry onto the second *)
      set (lc1 := coeff (eg e1) (el e1)) in *. set (lc2 := coeff (eg e2) (el e2)) in *.
      set (d := kdiv (kmul (ec e1) lc1) lc2).
      set (D := psub (tmul (kinv lc1) (ea e1) (eg e1)) (tmul (kinv lc2) (ea e2) (eg e2))).
      assert (N1 : lc1 <> k0) by apply L1. assert (N2 : lc2 <> k0) by apply L2.
      set (e2' := mkentry (kadd (ec e2) d) (ea e2) (eg e2) (el e2)).
      apply (IH (e2' :: tops) f (padd (tmul (kmul (ec e1) lc1) mone D) low)); auto.
      * constructor; [|exact Ht'']. split; [split; auto|exact T2].
      * apply rep_add; [|exact Hl]. apply (rep_tmul G n (fun m => lt m (etop e1)) _); [apply mvars_one| |].
        -- intros m X. rewrite mmul_1_l. exact X.
        -- apply (spol_multiple G n (eg e1) (el e1) (eg e2) (el e2) (ea e1) (ea e2) (etop e1)); auto.
      * rewrite E. rewrite !esum_cons. unfold eval_entry, e2'. simpl.
        rewrite tmul_add_coef. unfold D, psub. rewrite tmul_add, tmul_opp, !tmul_tmul.
        rewrite !mmul_1_l.
        assert (X1 : kmul (kmul (ec e1) lc1) (kinv lc1) = ec e1) by (field; exact N1).
        assert (X2 : kmul (kmul (ec e1) lc1) (kinv lc2) = d) by (unfold d; field; exact N2).
        rewrite X1, X2. ring.
Qed.

Lemma etop_vars G n e : (forall g, In g G -> svars n g) -> eok G n e -> mvars n (etop e).
Proof. intros VG (I & Lm & V). apply mvars_mul. split; auto. apply (is_lm_vars n (eg e)); auto. Qed.

Lemma split_top G n b es : Forall (fun e => eok G n e /\ mle (etop e) b) es ->
  exists tops lows, Forall (fun e => eok G n e /\ etop e = b) tops /\
    Forall (fun e => eok G n e /\ lt (etop e) b) lows /\ peq (esum es) (padd (esum tops) (esum lows)).
Proof.
  induction 1 as [|e es [O T] _ (tops & lows & Ht & Hl & E)].
  - exists [], []. repeat split; try constructor.
  - destruct T as [T|T].
    + exists (e :: tops), lows. split; [constructor; auto|]. split; auto. rewrite !esum_cons, E. ring.
    + exists tops, (e :: lows). split; auto. split; [constructor; auto|]. rewrite !esum_cons, E. ring.
Qed.

Theorem buchberger_rep G n : (forall g, In g G -> svars n g) -> spairs_ok G n ->
  forall b f, mvars n b -> rep G n (fun m => mle m b) f -> forall m, is_lm f m ->
  (exists g l, In g G /\ is_lm g l /\ mdiv l m) /\ rep G n (fun x => mle x m) f.
Proof.
  intros VG SP b. induction (lt_wf n b) as [b _ IH]. intros f V R m Hm.
  destruct (kdec (coeff f b) k0) as [Z|N].
  - assert (R' : rep G n (fun x => lt x b) f).
    { destruct R as (es & X & E). destruct (split_top G n b es X) as (tops & lows & Ht & Hl & E').
      apply (top_step G n b SP V (length tops) tops f (esum lows)); auto.
      - exists lows. split; [exact Hl|reflexivity].
      - rewrite E. exact E'. }
    destruct R' as (es & X & E). destruct es as [|e es].
    + exfalso. apply (lm_nonzero f m Hm). rewrite E. reflexivity.
    + destruct (list_max (map etop (e :: es))) as (b' & I & Hmax); [discriminate|].
      assert (Lt : lt b' b /\ mvars n b').
      { apply in_map_iff in I as (e' & <- & I). rewrite Forall_forall in X. destruct (X e' I) as [O T].
        split; auto. apply (etop_vars G); auto. }
      apply (IH b'); [repeat split; apply Lt || exact V|apply Lt| |exact Hm].
      exists (e :: es). split; [|exact E]. rewrite Forall_forall in *. intros e' I'. split; [apply X; exact I'|].
      apply Hmax. apply in_map. exact I'.
  - assert (Em : m = b).
    { apply mle_antisym; [|apply Hm; exact N].
      destruct (rep_support _ _ _ _ _ R (proj1 Hm)) as (x & X & Y). eapply mle_trans; eassumption. }
    subst m. split; [|exact R].
    destruct R as (es & X & E). destruct (split_top G n b es X) as (tops & lows & Ht & Hl & E').
    destruct tops as [|e tops].
    + exfalso. apply N. apply (rep_lt_coeff G n). exists lows. split; [exact Hl|]. rewrite E, E'. change (esum []) with (@pzero K). ring.
    + inversion Ht as [|? ? [(I & Lm & _) T] _]; subst. exists (eg e), (el e). split; auto. split; auto.
      apply mdiv_mul_r.
Qed.

Theorem buchberger G n : (forall g, In g G -> svars n g) -> spairs_ok G n -> groebner G.
Proof.
  intros VG SP f m Hf Hm. destruct (ideal_rep G f Hf) as (n0 & H0).
  set (n' := Nat.max n n0). assert (R : rep G n' (fun _ => True) f) by (apply H0; lia).
  assert (VG' : forall g, In g G -> svars n' g) by (intros g I; apply (svars_le n); [lia|auto]).
  assert (SP' : spairs_ok G n').
  { intros g l h l' Ig Ih Hg Hh. eapply rep_mono; [|intros x X; exact X|apply SP; eassumption]. lia. }
  destruct R as (es & X & E). destruct es as [|e es].
  - exfalso. apply (lm_nonzero f m Hm). rewrite E. reflexivity.
  - destruct (list_max (map etop (e :: es))) as (b & I & Hmax); [discriminate|].
    apply (buchberger_rep G n' VG' SP' b f); auto.
    + apply in_map_iff in I as (e' & <- & I). rewrite Forall_forall in X. apply (etop_vars G); auto. apply X. exact I.
    + exists (e :: es). split; [|exact E]. rewrite Forall_forall in *. intros e' I'. split; [apply X; exact I'|].
      apply Hmax. apply in_map. exact I'.
Qed.

(** ** consequences of the Groebner property *)
Definition reduced G r : Prop :=
  forall m, coeff r m <> k0 -> forall g l, In g G -> is_lm g l -> ~ mdiv l m.
Lemma reduced_eq G r r' : peq r r' -> reduced G r -> reduced G r'.
Proof. intros E H m N. apply H. rewrite E. exact N. Qed.
Lemma reduced_ideal_zero G r : groebner G -> in_ideal G r -> reduced G r -> peq r pzero.
Proof.
  intros GB I R. destruct (zero_or_lm r) as [|(m & Hm)]; auto. exfalso.
  destruct (GB r m I Hm) as (g & l & Ig & Lg & D). exact (R m (proj1 Hm) g l Ig Lg D).
Qed.
Lemma reduced_sub G r r' : reduced G r -> reduced G r' -> reduced G (psub r r').
Proof.
  intros H H' m N. rewrite coeff_sub in N. destruct (kdec (coeff r m) k0) as [Z|Y]; [|exact (H m Y)].
  apply H'. intros Z'. apply N. rewrite Z, Z'. ring.
Qed.
Lemma remainder_unique G f r r' : groebner G -> in_ideal G (psub f r) -> in_ideal G (psub f r') ->
  reduced G r -> reduced G r' -> peq r r'.
Proof.
  intros GB I I' R R'.
  assert (Z : peq (psub r r') pzero).
  { apply (reduced_ideal_zero G); auto; [|apply reduced_sub; assumption].
    assert (E : peq (psub r r') (psub (psub f r') (psub f r))) by ring. rewrite E. apply in_ideal_sub; assumption. }
  assert (E : peq r (padd (psub r r') r')) by ring. rewrite E, Z. ring.
Qed.

(** subtracting the right multiple of [g] lowers the leading monomial *)
Lemma reduce_lm f g l a m : is_lm f m -> is_lm g l -> m = mmul a l ->
  forall x, coeff (psub f (tmul (kdiv (coeff f m) (coeff g l)) a g)) x <> k0 -> lt x m.
Proof.
  intros Hf Hg E x N. rewrite coeff_sub in N.
  assert (Le : mle x m).
  { destruct (kdec (coeff f x) k0) as [Z|Y]; [|apply Hf; exact Y].
    rewrite E. eapply tmul_le; [exact Hg|]. intros Z'. apply N. rewrite Z. rewrite Z'. ring. }
  destruct Le as [->|X]; auto. exfalso. apply N.
  pose proof (coeff_tmul (kdiv (coeff f m) (coeff g l)) a g l) as C. rewrite <- E in C. rewrite C. field. apply Hg.
Qed.

(** a set of ideal elements whose leading monomials cover those of the ideal generates it *)
Theorem lm_cover G H : (forall f m, in_ideal G f -> is_lm f m -> exists h l, In h H /\ is_lm h l /\ mdiv l m) ->
  (forall h, In h H -> in_ideal G h) -> forall f, in_ideal G f -> in_ideal H f.
Proof.
  intros Cov HG f If.
  assert (VH : exists n, svars n f /\ forall h, In h H -> svars n h).
  { destruct (svars_exists f) as (n & Vf).
    assert (X : exists n', forall h, In h H -> svars n' h).
    { clear. induction H as [|h H (n & IH)]; [exists 0; intros h []|]. destruct (svars_exists h) as (n' & V).
      exists (Nat.max n n'). intros x [->|I]; [apply (svars_le n')|apply (svars_le n)]; auto; lia. }
    destruct X as (n' & V). exists (Nat.max n n'). split; [apply (svars_le n); [lia|exact Vf]|].
    intros h I. apply (svars_le n'); [lia|auto]. }
  destruct VH as (n & Vf & VH).
  assert (X : forall m, mvars n m -> forall f, svars n f -> in_ideal G f -> is_lm f m -> in_ideal H f).
  { intros m. induction (lt_wf n m) as [m _ IH]. clear f If Vf. intros Vm f Vf If Hm.
    destruct (Cov f m If Hm) as (h & l & Ih & Lh & D). apply mdiv_iff in D as (a & Ea).
    rewrite mmul_comm in Ea. set (r := psub f (tmul (kdiv (coeff f m) (coeff h l)) a h)).
    assert (Er : peq f (padd r (tmul (kdiv (coeff f m) (coeff h l)) a h))) by (unfold r; ring).
    rewrite Er. apply in_ideal_add; [|apply in_ideal_tmul; apply in_ideal_gen; exact Ih].
    assert (Va : mvars n a) by (rewrite Ea in Vm; apply mvars_mul in Vm; apply Vm).
    destruct (zero_or_lm r) as [Z|(m' & Hm')]; [rewrite Z; apply in_ideal_zero|].
    assert (Vr : svars n r) by (apply svars_sub; auto; apply svars_tmul; auto).
    apply (IH m'); auto.
    - split; [apply (is_lm_vars n r); auto|]. split; [exact Vm|]. apply (reduce_lm f h l a m); auto. apply Hm'.
    - apply (is_lm_vars n r); auto.
    - apply in_ideal_sub; auto. apply in_ideal_tmul. auto. }
  destruct (zero_or_lm f) as [Z|(m & Hm)]; [rewrite Z; apply in_ideal_zero|].
  apply (X m); auto. apply (is_lm_vars n f); auto.
Qed.

(** ** minimal inter-reduced bases are unique up to scaling *)
Definition inter_reduced G : Prop :=
  (forall g, In g G -> ~ peq g pzero) /\
  forall i j gi gj l m, i <> j -> nth_error G i = Some gi -> nth_error G j = Some gj -> is_lm gj l ->
    coeff gi m <> k0 -> ~ mdiv l m.

Lemma inter_reduced_lm G g g' l l' : inter_reduced G -> In g G -> In g' G -> is_lm g l -> is_lm g' l' ->
  mdiv l l' -> g = g'.
Proof.
  intros [_ R] I I' Hl Hl' D. apply In_nth_error in I as (i & E). apply In_nth_error in I' as (j & E').
  destruct (Nat.eq_dec i j) as [->|N]; [congruence|]. exfalso.
  exact (R j i g' g l l' (not_eq_sym N) E' E Hl (proj1 Hl') D).
Qed.

Lemma inter_reduced_tail G g l m : inter_reduced G -> In g G -> is_lm g l -> coeff g m <> k0 -> m <> l ->
  forall h l', In h G -> is_lm h l' -> ~ mdiv l' m.
Proof.
  intros [NZ R] I Hl N Nm h l' Ih Hh D. apply In_nth_error in I as (i & E). apply In_nth_error in Ih as (j & E').
  destruct (Nat.eq_dec i j) as [->|Nij].
  - assert (h = g) by congruence. subst h. rewrite (is_lm_unique g l' l Hh Hl) in D.
    apply mdiv_mle in D. apply Nm. apply mle_antisym; auto. apply Hl. exact N.
  - exact (R i j g h l' m Nij E E' Hh N D).
Qed.

Theorem inter_reduced_unique G H : groebner G -> groebner H -> inter_reduced G -> inter_reduced H ->
  (forall f, in_ideal G f <-> in_ideal H f) ->
  forall g, In g G -> exists h c, In h H /\ c <> k0 /\ peq g (pscale c h).
Proof.
  intros GB HB RG RH EI g Ig.
  destruct (zero_or_lm g) as [Z|(m & Hm)]; [exfalso; exact (proj1 RG g Ig Z)|].
  destruct (HB g m) as (h & l & Ih & Lh & D1); auto; [apply EI; apply in_ideal_gen; exact Ig|].
  destruct (GB h l) as (g' & l' & Ig' & Lg' & D2); auto; [apply EI; apply in_ideal_gen; exact Ih|].
  assert (g' = g) by (eapply (inter_reduced_lm G g' g l' m); eauto; eapply mdiv_trans; eassumption). subst g'.
  assert (l' = m) by (eapply is_lm_unique; eassumption). subst l'.
  assert (l = m) by (apply mdiv_antisym; assumption). subst l.
  set (c := kdiv (coeff g m) (coeff h m)).
  assert (Nc : c <> k0).
  { unfold c. intros E. apply (proj1 Hm). transitivity (kmul (kdiv (coeff g m) (coeff h m)) (coeff h m)).
    - field. apply Lh.
    - rewrite E. ring. }
  exists h, c. split; [exact Ih|]. split; [exact Nc|].
  assert (Z : peq (psub g (pscale c h)) pzero).
  { destruct (zero_or_lm (psub g (pscale c h))) as [|(x & Hx)]; auto. exfalso.
    assert (Id : in_ideal G (psub g (pscale c h))).
    { apply in_ideal_sub; [apply in_ideal_gen; exact Ig|]. apply in_ideal_tmul. apply EI. apply in_ideal_gen. exact Ih. }
    assert (Nx : x <> m).
    { intros ->. apply (proj1 Hx). rewrite coeff_sub, coeff_scale. unfold c. field. apply Lh. }
    destruct (kdec (coeff g x) k0) as [Zg|Ng].
    - assert (Nh : coeff h x <> k0).
      { intros E. apply (proj1 Hx). rewrite coeff_sub, coeff_scale, Zg, E. ring. }
      apply EI in Id. destruct (HB _ x Id Hx) as (h' & l'' & Ih' & Lh' & D).
      exact (inter_reduced_tail H h m x RH Ih Lh Nh Nx h' l'' Ih' Lh' D).
    - destruct (GB _ x Id Hx) as (g' & l'' & Ig'' & Lg'' & D).
      exact (inter_reduced_tail G g m x RG Ig Hm Ng Nx g' l'' Ig'' Lg'' D). }
  assert (E : peq g (padd (psub g (pscale c h)) (pscale c h))) by ring. rewrite E, Z. ring.
Qed.

(** Groebner property only depends on the ideal and the set of leading monomials *)
Lemma groebner_transfer G H : (forall f, in_ideal H f -> in_ideal G f) -> groebner G ->
  (forall g l, In g G -> is_lm g l -> exists h l', In h H /\ is_lm h l' /\ mdiv l' l) -> groebner H.
Proof.
  intros EI GB C f m If Hm. destruct (GB f m (EI f If) Hm) as (g & l & Ig & Lg & D).
  destruct (C g l Ig Lg) as (h & l' & Ih & Lh & D'). exists h, l'. repeat split; auto; try apply Lh. eapply mdiv_trans; eassumption.
Qed.

End Groebner.
