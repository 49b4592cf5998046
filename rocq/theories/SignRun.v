(** * Divisions and Groebner bases of monomials and differences of monomials: all coefficients stay 1 or -1, and the run
    over [zimpl 1] and the run over a coefficient type simulating it end alike, overflows included. *)
From Coq Require Import ZArith QArith Qcanon Lia Permutation Setoid.
From Verif Require Import Base BaseLemmas IntModel RatModel FieldIface IntProofs RatProofs NumFacts MDegModel OrdModel PolyModel CompModel
  MonoSpec MDegProofs OrdProofs PolySpec PolyProofs GroebnerSpec DivProofs GbProofs UtilModel MatModel MatProofs Param ParamMat Ideal FloatModel FloatExact FloatSim PropFloat BoundProofs PropBounds PropDiv PropSparse IntSim SignSim.
Local Open Scope Z_scope.

(** ** the same outcome *)
Definition ssim {A A' : Type} (R : A -> A' -> Prop) (x : res A) (y : res A') : Prop :=
  match x, y with
  | Ok a, Ok a' => R a a'
  | Panic k, Panic k' => k = k'
  | NoFuel, NoFuel => True
  | _, _ => False
  end.
Section Same.
Context {A A' : Type} (R : A -> A' -> Prop).
Lemma ssim_Ok a a' : R a a' -> ssim R (Ok a) (Ok a').
Proof. exact (fun h => h). Qed.
Lemma ssim_bind {B B' : Type} (Q : B -> B' -> Prop) x y (f : A -> res B) (g : A' -> res B') :
  ssim R x y -> (forall a a', x = Ok a -> R a a' -> ssim Q (f a) (g a')) -> ssim Q (bind x f) (bind y g).
Proof. destruct x, y; cbn; intros H G; try contradiction; auto. Qed.
Lemma ssim_rsim x y : rsim R x y -> x <> Panic Overflow -> ssim R x y.
Proof. destruct x as [a|[]|]; cbn; intros H N; try (rewrite H; reflexivity); [destruct y; auto|congruence]. Qed.
Lemma ssim_ok x y a : rsim R x y -> x = Ok a -> ssim R x y.
Proof. intros H E. apply ssim_rsim; [exact H|]. rewrite E. discriminate. Qed.
Lemma ssim_both x y : rsim R x y -> rsim (fun a' a => R a a') y x -> ssim R x y.
Proof.
  intros H G. destruct x as [a|k|].
  - destruct y; cbn in *; try contradiction; auto.
  - destruct y as [a'|k'|]; cbn in *; [contradiction| |discriminate G]. destruct k, k'; try reflexivity; congruence.
  - cbn in H. subst y. exact I.
Qed.
Lemma unwrap_ssim o o' : orel R o o' -> ssim R (unwrap o) (unwrap o').
Proof. destruct o, o'; cbn; try contradiction; auto. Qed.
End Same.
Section Same2.
Context {A A' : Type} (R : A -> A' -> Prop).
Lemma Forall2_flip (l : list A) (l' : list A') : Forall2 R l l' -> Forall2 (fun a' a => R a a') l' l.
Proof. induction 1; auto. Qed.
Lemma vget_ssim l l' i : Forall2 R l l' -> ssim R (vget l i) (vget l' i).
Proof. intros H. apply ssim_rsim; [apply vget_rsim; exact H|]. unfold vget. destruct (nth_error l i); discriminate. Qed.
Lemma mapM_ssim {B B' : Type} (Q : B -> B' -> Prop) f f' l l' :
  (forall a a', In a l -> R a a' -> ssim Q (f a) (f' a')) -> Forall2 R l l' -> ssim (Forall2 Q) (mapM f l) (mapM f' l').
Proof.
  intros E H. induction H as [|a a' l l' Ha _ IH]; cbn [mapM]; [constructor|].
  eapply ssim_bind; [apply E; [left; reflexivity|exact Ha]|]. intros b b' _ Hb. eapply ssim_bind; [apply IH; intros; apply E; [right; assumption|assumption]|]. intros bs bs' _ Hbs.
  apply ssim_Ok. constructor; assumption.
Qed.
End Same2.
Arguments ssim {A A'} R x y : simpl never.
Lemma ssim_refl {A : Type} (x : res A) : ssim eq x x.
Proof. destruct x; unfold ssim; auto. Qed.

(** ** Terms with coefficient 1 or -1 *)
Notation Zi := (zimpl 1).
Notation ZS := (zspec 1).
Definition unit (t : term Zi) : Prop := (coef t : Z) = 1 \/ (coef t : Z) = -1.
Notation tm t := (canon (tdeg t)).
Definition sg (p : poly Zi) : Prop :=
  p = [] \/ (exists l : term Zi, p = [l] /\ unit l) \/ (exists l u : term Zi, p = [l; u] /\ unit l /\ (coef u : Z) = - (coef l)).
Notation clean := (pwf ZS).
Notation val := (ip ZS).

Lemma unit_nz (t : term Zi) : unit t -> term_is_zero t = false.
Proof. intros [E|E]; unfold term_is_zero; rewrite E; reflexivity. Qed.
Lemma sg_unit p t : sg p -> In t p -> unit t.
Proof. intros [->|[(l & -> & U)|(l & u & -> & U & E)]] I; [destruct I|destruct I as [<-|[]]; exact U|]. destruct I as [<-|[<-|[]]]; [exact U|]. unfold unit in *. lia. Qed.
Lemma sg_Forall p : sg p -> Forall unit p.
Proof. intros S. apply Forall_forall. intros t I. exact (sg_unit p t S I). Qed.
Lemma sg_perm p q : Permutation p q -> sg p -> sg q.
Proof.
  intros P [->|[(l & -> & U)|(l & u & -> & U & E)]].
  - apply Permutation_nil in P. subst q. left. reflexivity.
  - apply Permutation_length_1_inv in P. subst q. right; left. eauto.
  - apply Permutation_length_2_inv in P as [->| ->]; right; right; [exists l, u; auto|]. exists u, l. split; [reflexivity|]. unfold unit in *. lia.
Qed.
Lemma sg_length p : sg p -> (length p <= 2)%nat.
Proof. intros [->|[(l & -> & U)|(l & u & -> & U & E)]]; cbn; lia. Qed.
Lemma sg_app_l p q : sg (p ++ q) -> sg p.
Proof.
  intros [E|[(l & E & U)|(l & u & E & U & V)]].
  - apply app_eq_nil in E as [-> _]. left. reflexivity.
  - destruct p as [|x p]; [left; reflexivity|]. injection E as -> E. apply app_eq_nil in E as [-> _]. right; left. eauto.
  - destruct p as [|x [|y p]]; [left; reflexivity| |].
    + injection E as -> _. right; left. eauto.
    + injection E as -> -> E. apply app_eq_nil in E as [-> _]. right; right. eauto.
Qed.
Lemma sg_app_r p q : sg (p ++ q) -> sg q.
Proof. intros H. apply (sg_app_l q p). apply (sg_perm (p ++ q)); [apply Permutation_app_comm|exact H]. Qed.

(** a term of a new multidegree, or the negative of a term that is there *)
Lemma add_fresh (p : poly Zi) t : unit t -> (forall u, In u p -> tdeg u <> tdeg t) -> poly_add_term p t = Ok (p ++ [t]).
Proof.
  intros U H. unfold poly_add_term, poly_from_term. rewrite (unit_nz t U). destruct p as [|x p]; [reflexivity|]. cbn [poly_is_zero].
  destruct (position _ (x :: p)) as [i|] eqn:E; [|reflexivity].
  apply position_Some in E as (l1 & y & l2 & El & _ & Ey & _). apply mdeg_eqb_eq in Ey. destruct (H y); [|exact Ey]. rewrite El. apply in_elt.
Qed.
Lemma mdeg_eqb_refl d : mdeg_eqb d d = true.
Proof. apply mdeg_eqb_eq. reflexivity. Qed.
Lemma mdeg_eqb_neq a b : a <> b -> mdeg_eqb a b = false.
Proof. intros N. destruct (mdeg_eqb a b) eqn:E; [apply mdeg_eqb_eq in E; contradiction|reflexivity]. Qed.

(** subtracting a polynomial of this kind with the same leading part *)
Definition heads (l : term Zi) (p : poly Zi) : Prop :=
  unit l /\ (p = [l] \/ exists u : term Zi, tdeg u <> tdeg l /\ (coef u : Z) = - (coef l) /\ (p = [l; u] \/ p = [u; l])).
Lemma sg_heads p l : clean p -> sg p -> In l p -> heads l p.
Proof.
  intros [_ N] S I. split; [exact (sg_unit p l S I)|]. destruct S as [->|[(k & -> & U)|(k & u & -> & U & E)]].
  - destruct I.
  - destruct I as [->|[]]. left. reflexivity.
  - right. cbn [map] in N. inversion N as [|x xs N1 _]; subst. assert (D : tdeg u <> tdeg k) by (intros D; apply N1; rewrite D; left; reflexivity).
    destruct I as [->|[->|[]]].
    + exists u. auto.
    + exists k. split; [congruence|]. split; [lia|auto].
Qed.
Ltac degs := repeat (progress (cbn; repeat (rewrite mdeg_eqb_refl || (rewrite mdeg_eqb_neq by congruence)))).
Lemma sub_heads f g l x : heads l f -> heads x g -> tdeg x = tdeg l -> (coef x : Z) = coef l ->
  exists r, poly_sub f g = Ok r /\ (r = [] \/ (exists v : term Zi, r = [v] /\ unit v /\ (f = [l] -> (coef v : Z) = coef l)) \/
    (exists v w : term Zi, r = [v; w] /\ unit v /\ (coef w : Z) = - (coef v) /\ length f = 2%nat)).
Proof.
  intros [Ul Hf] [_ Hg] Ed Ec. unfold unit in *. destruct l as [cl dl], x as [cx dx]. cbn [coef tdeg] in *. subst dx cx.
  destruct Hf as [->|([cu du] & Nu & Eu & Hf)], Hg as [->|([cy dy] & Ny & Ey & Hg)]; cbn [coef tdeg] in *; subst.
  - destruct Ul as [-> | ->]; eexists; (split; [unfold poly_sub, poly_add, poly_add_term; cbn; degs; reflexivity|]); left; reflexivity.
  - destruct Hg as [-> | ->]; destruct Ul as [-> | ->]; eexists; (split; [unfold poly_sub, poly_add, poly_add_term; cbn; degs; reflexivity|]); right; left; eexists; (split; [reflexivity|]); cbn; auto.
  - destruct Hf as [-> | ->]; destruct Ul as [-> | ->]; eexists; (split; [unfold poly_sub, poly_add, poly_add_term; cbn; degs; reflexivity|]); right; left; eexists; (split; [reflexivity|]); cbn; (split; [auto|intros E; discriminate E]).
  - destruct (mdeg_eqb du dy) eqn:Eq.
    + apply mdeg_eqb_eq in Eq. subst dy. destruct Hf as [-> | ->]; destruct Hg as [-> | ->]; destruct Ul as [-> | ->]; eexists;
        (split; [unfold poly_sub, poly_add, poly_add_term; cbn; degs; reflexivity|]); left; reflexivity.
    + assert (Nuy : du <> dy) by (intros ->; rewrite mdeg_eqb_refl in Eq; discriminate Eq). clear Eq.
      destruct Hf as [-> | ->]; destruct Hg as [-> | ->]; destruct Ul as [-> | ->]; eexists;
        (split; [unfold poly_sub, poly_add, poly_add_term; cbn; degs; reflexivity|]); right; right; eexists; eexists; (split; [reflexivity|]); cbn; auto.
Qed.

Lemma tdeg_ext (s t : term Zi) : twf ZS s -> twf ZS t -> tm s = tm t -> tdeg s = tdeg t.
Proof.
  intros (_ & _ & Cs & _) (_ & _ & Ct & _) E. apply canonical_ext; [exact Cs|exact Ct|]. intros i. rewrite <- !canon_exp, E. reflexivity.
Qed.
Lemma den_coef (s t : term Zi) : den ZS (coef s) = den ZS (coef t) -> (coef s : Z) = coef t.
Proof. apply intq_inj. Qed.
Lemma unit_mul a b c : a * b = c -> b = 1 \/ b = -1 -> c = 1 \/ c = -1 -> a = 1 \/ a = -1.
Proof. intros E [-> | ->] H; lia. Qed.

Lemma F2_in {A B : Type} (P : A -> B -> Prop) l l' x : Forall2 P l l' -> In x l -> exists y, In y l' /\ P x y.
Proof. induction 1 as [|a b l l' H _ IH]; intros I; [destruct I|]. destruct I as [->|I]; [exists b; cbn; auto|]. destruct (IH I) as (y & Iy & Py). exists y. cbn. auto. Qed.
Lemma F2_nth {A B : Type} (P : A -> B -> Prop) l l' i x y : Forall2 P l l' -> nth_error l i = Some x -> nth_error l' i = Some y -> P x y.
Proof. intros H. revert i. induction H as [|a b l l' H _ IH]; intros [|i] E E'; try discriminate E; [injection E as <-; injection E' as <-; exact H|eauto]. Qed.
Lemma F2_set {A B : Type} (P : A -> B -> Prop) l l' i y : Forall2 P l l' -> (forall x, nth_error l i = Some x -> P x y) -> Forall2 P l (list_set l' i y).
Proof. intros H. revert i. induction H as [|a b l l' H H0 IH]; intros [|i] E; cbn [list_set]; constructor; auto. Qed.

Section Run.
Context {F : FieldImpl} {R : Zi -> F -> Prop} (X : FieldSim Zi F R) {O : ord_impl} (OS : OrderSpec O).
Notation trel := (@trel Zi F R).
Notation prel := (Forall2 trel).
Notation lt := (olt OS).
Notation LM := (is_lm lt).
Notation mle := (mle lt).
Let laws := olaws _ OS.
Local Notation d2 := (or_introl eq_refl : mode_le Debug Debug).

Lemma cmp_l s t s' t' : trel s s' -> trel t t' -> rsim eq (term_cmp O s t) (term_cmp O s' t').
Proof. intros [_ H] [_ G]. unfold term_cmp. rewrite H, G. apply rsim_refl. Qed.
Lemma cmp_r s t s' t' : trel s' s -> trel t' t -> rsim eq (term_cmp O s t) (term_cmp O s' t').
Proof. intros [_ H] [_ G]. unfold term_cmp. rewrite H, G. apply rsim_refl. Qed.
Lemma leading_ssim p p' : prel p p' -> ssim (orel trel) (leading_term O p) (leading_term O p').
Proof.
  intros H. apply ssim_both.
  - apply max_by_rsim; [exact cmp_l|exact H].
  - eapply rsim_mono; [|apply (max_by_rsim (fun t' t => trel t t')); [intros a b a' b' Ha Hb; apply cmp_r; assumption|apply Forall2_flip; exact H]].
    intros [a|] [a'|] K; exact K.
Qed.
Lemma sort_ssim p p' : prel p p' -> ssim prel (sort_by (term_cmp O) p) (sort_by (term_cmp O) p').
Proof.
  intros H. apply ssim_both.
  - apply sort_by_rsim; [exact cmp_l|exact H].
  - eapply rsim_mono; [|apply (sort_by_rsim (fun t' t => trel t t')); [intros a b a' b' Ha Hb; apply cmp_r; assumption|apply Forall2_flip; exact H]].
    intros a a' K. apply Forall2_flip in K. exact K.
Qed.
Lemma mul_ssim s t s' t' : trel s s' -> trel t t' -> unit s -> unit t -> ssim trel (term_mul Debug s t) (term_mul Debug s' t').
Proof.
  intros Hs Ht Us Ut. unfold term_mul. rewrite <- (term_is_zero_rel X _ _ Hs), <- (term_is_zero_rel X _ _ Ht), (unit_nz s Us), (unit_nz t Ut). cbn [orb].
  destruct Hs as [Hs Ds], Ht as [Ht Dt].
  eapply ssim_bind; [eapply ssim_ok; [apply (s_mul _ _ _ X); eassumption|]|].
  - cbn [fmul zimpl]. apply zchk_ok. unfold unit in *. nia.
  - intros c c' _ Hc. rewrite Ds, Dt. eapply ssim_bind; [apply ssim_refl|]. intros d d' _ <-. split; [exact Hc|reflexivity].
Qed.
Lemma mul_poly_ssim a g a' g' : trel a a' -> prel g g' -> unit a -> Forall unit g -> ssim prel (term_mul_poly Debug a g) (term_mul_poly Debug a' g').
Proof.
  intros Ha Hg Ua Ug. unfold term_mul_poly, poly_mul_term. rewrite <- (term_is_zero_rel X _ _ Ha), <- (poly_is_zero_rel _ _ Hg).
  destruct (term_is_zero a || poly_is_zero g); [constructor|]. apply (mapM_ssim trel); [|exact Hg]. intros s s' I Hs. apply mul_ssim; auto.
  rewrite Forall_forall in Ug. auto.
Qed.
Lemma mul_coef (s a r : term Zi) : unit s -> unit a -> term_mul Debug s a = Ok r -> (coef r : Z) = coef s * coef a.
Proof.
  intros Us Ua E. unfold term_mul in E. rewrite (unit_nz s Us), (unit_nz a Ua) in E. cbn [orb] in E.
  apply bind_Ok in E as (c & Ec & E). apply bind_Ok in E as (d & _ & E). injection E as <-. cbn [coef].
  cbn [fmul zimpl] in Ec. rewrite zchk_ok in Ec by (unfold unit in *; nia). injection Ec as <-. reflexivity.
Qed.
Lemma mul_sg a g ag : unit a -> twf ZS a -> clean g -> sg g -> term_mul_poly Debug a g = Ok ag ->
  sg ag /\ forall x, In x g -> exists y, In y ag /\ (coef y : Z) = coef x * coef a /\ tm y = mmul (tm x) (tm a).
Proof.
  intros Ua Wa Wg Sg E. unfold term_mul_poly, poly_mul_term in E. rewrite (unit_nz a Ua) in E. cbn [orb] in E.
  destruct g as [|x g]; [injection E as <-; split; [left; reflexivity|intros x []]|]. cbn [poly_is_zero] in E.
  pose proof (sg_Forall _ Sg) as U. rewrite Forall_forall in U.
  assert (T : forall s r, In s (x :: g) -> term_mul Debug s a = Ok r -> (coef r : Z) = coef s * coef a /\ tm r = mmul (tm s) (tm a)).
  { intros s r I Er. split; [apply mul_coef; auto|]. pose proof (pwf_in ZS _ s Wg I) as Ws.
    pose proof (term_mul_ok ZS s a (twf_twf0 ZS s Ws) (twf_twf0 ZS a Wa)) as H. rewrite Er in H. cbn [safe] in H. apply H; assumption. }
  apply mapM_Ok in E. split.
  - destruct Sg as [D|[(l & D & Ul)|(l & u & D & Ul & Eu)]]; [discriminate D| |].
    + injection D as -> ->. inversion E as [|? r ? rs E1 E2]; subst. inversion E2; subst. right; left. exists r. split; [reflexivity|].
      destruct (T l r) as [C _]; [left; reflexivity|exact E1|]. unfold unit in *. rewrite C. nia.
    + injection D as -> ->. inversion E as [|? r ? rs E1 E2]; subst. inversion E2 as [|? r' ? rs' E3 E4]; subst. inversion E4; subst. right; right. exists r, r'. split; [reflexivity|].
      destruct (T l r) as [C _]; [left; reflexivity|exact E1|]. destruct (T u r') as [C' _]; [right; left; reflexivity|exact E3|].
      unfold unit in *. rewrite C, C', Eu. split; nia.
  - intros s I. destruct (F2_in _ _ _ s E I) as (r & Ir & Er). exists r. split; [exact Ir|]. apply T; assumption.
Qed.
(** taking the multiple of a divisor from the dividend *)
Lemma step f g t l a ag : clean f -> sg f -> clean g -> sg g -> In t f -> twf ZS a -> LM (val g) l -> tm t = mmul (tm a) l ->
  den ZS (coef a) = kdiv (den ZS (coef t)) (coeff (val g) l) ->
  unit a /\ (term_mul_poly Debug a g = Ok ag ->
  exists r, poly_sub f ag = Ok r /\ (r = [] \/ (exists v : term Zi, r = [v] /\ unit v /\ (f = [t] -> (coef v : Z) = coef t)) \/
    (exists v w : term Zi, r = [v; w] /\ unit v /\ (coef w : Z) = - (coef v) /\ length f = 2%nat))).
Proof.
  intros Wf Sf Wg Sg It Wa Lg Em Ea. destruct (proj1 (pwf_support ZS g l Wg) (proj1 Lg)) as (x & Ix & Ex).
  assert (Cx : coeff (val g) l = den ZS (coef x)) by (rewrite <- Ex; apply pwf_coeff; assumption).
  pose proof (sg_unit f t Sf It) as Ut. pose proof (sg_unit g x Sg Ix) as Ux.
  assert (C : (coef a : Z) * coef x = coef t).
  { apply intq_inj. rewrite <- intq_mul. change (intq (coef a)) with (den ZS (coef a)). rewrite Ea, Cx. cbn [den zspec kdiv QcField].
    field. change 0%Qc with (intq 0). intros D. apply intq_inj in D. unfold unit in Ux. lia. }
  assert (Ua : unit a) by (exact (unit_mul _ _ _ C Ux Ut)). split; [exact Ua|]. intros E.
  destruct (mul_sg a g ag Ua Wa Wg Sg E) as [Sag H]. destruct (H x Ix) as (y & Iy & Cy & Ty).
  pose proof (term_mul_poly_ok ZS a g Wa Wg) as HM. rewrite E in HM. cbn [safe] in HM. destruct HM as [Wag _].
  apply (sub_heads f ag t y).
  - apply sg_heads; assumption.
  - apply sg_heads; assumption.
  - apply tdeg_ext; [exact (pwf_in ZS ag y Wag Iy)|exact (pwf_in ZS f t Wf It)|]. rewrite Ty, Ex, Em. apply mmul_comm.
  - rewrite Cy, <- C. apply Z.mul_comm.
Qed.
Lemma step_sg f g t l a ag rem r : clean f -> sg (f ++ rem) -> clean g -> sg g -> In t f -> twf ZS a -> LM (val g) l -> tm t = mmul (tm a) l ->
  den ZS (coef a) = kdiv (den ZS (coef t)) (coeff (val g) l) -> term_mul_poly Debug a g = Ok ag -> poly_sub f ag = Ok r -> sg (r ++ rem).
Proof.
  intros Wf Sf Wg Sg It Wa Lg Em Ea E Er.
  destruct (step f g t l a ag Wf (sg_app_l _ _ Sf) Wg Sg It Wa Lg Em Ea) as [_ H]. destruct (H E) as (r' & Er' & D).
  rewrite Er in Er'. injection Er' as <-.
  destruct f as [|x [|y f]]; [destruct It| |].
  - destruct It as [->|[]]. destruct D as [->|[(v & -> & Uv & Cv)|(v & w & _ & _ & _ & L)]]; [exact (sg_app_r _ _ Sf)| |discriminate L].
    specialize (Cv eq_refl). destruct Sf as [Z|[(k & Z & Uk)|(k & u & Z & Uk & Cu)]]; [discriminate Z| |].
    + injection Z as -> ->. right; left. exists v. auto.
    + injection Z as -> ->. right; right. exists v, u. split; [reflexivity|]. split; [exact Uv|]. rewrite Cv. exact Cu.
  - assert (Z : rem = []).
    { apply sg_length in Sf. cbn [app length] in Sf. rewrite app_length in Sf. destruct rem; [reflexivity|cbn [length] in Sf; lia]. }
    rewrite Z, app_nil_r. destruct D as [->|[(v & -> & Uv & _)|(v & w & -> & Uv & Cw & _)]]; [left; reflexivity|right; left; eauto|right; right; eauto].
Qed.

(** the quotients: their terms times the leading monomials of the divisors are above what is left *)
Definition qinv (f : poly Zi) : list (poly Zi) -> list (poly Zi) -> Prop :=
  Forall2 (fun g q => Forall unit q /\ forall u l m, In u q -> LM (val g) l -> coeff (val f) m <> k0 -> lt m (mmul (tm u) l)).
Lemma qinv_mono f f' ds qs : (forall m, coeff (val f') m <> k0 -> exists m', coeff (val f) m' <> k0 /\ mle m m') -> qinv f ds qs -> qinv f' ds qs.
Proof.
  intros H. unfold qinv. apply Forall2_impl. intros g q [U Q]. split; [exact U|]. intros u l m Iu Ll N. destruct (H m N) as (m' & N' & L).
  pose proof (Q u l m' Iu Ll N') as Y. eapply (mle_lt_trans lt laws); eassumption.
Qed.
Lemma try_div_units (s t : term Zi) : unit s -> unit t -> term_try_div s t <> Panic Overflow.
Proof.
  intros Us Ut. unfold term_try_div. rewrite (unit_nz s Us), (unit_nz t Ut). unfold unit in *.
  destruct Us as [-> | ->], Ut as [-> | ->]; cbn; destruct (mdeg_checked_sub _ _); discriminate.
Qed.
Lemma try_div_unit (s t a : term Zi) : unit s -> unit t -> term_try_div s t = Ok (Some a) -> unit a.
Proof.
  intros Us Ut. unfold term_try_div. rewrite (unit_nz s Us), (unit_nz t Ut). unfold unit in *.
  destruct Us as [-> | ->], Ut as [-> | ->]; cbn; destruct (mdeg_checked_sub _ _); intros E; try discriminate E; injection E as <-; cbn; auto.
Qed.
Lemma try_divisors_ssim f t t' : twf ZS t -> unit t -> trel t t' -> coeff (val f) (tm t) <> k0 ->
  forall ds ds', Forall2 prel ds ds' -> Forall clean ds -> Forall sg ds -> forall qs qs', Forall2 prel qs qs' -> Forall clean qs -> qinv f ds qs ->
  ssim (orel (tdrel (R := R))) (try_divisors O t ds qs) (try_divisors O t' ds' qs').
Proof.
  intros Wt Ut Rt Nt ds ds' H. induction H as [|g g' ds ds' Hg _ IH]; intros Wd Sd qs qs' Hq Wq Q; cbn [try_divisors]; [exact I|].
  destruct Hq as [|q q' qs qs' Hq Hqs]; [exact I|].
  apply Forall_cons_iff in Wd as [Wg Wd]. apply Forall_cons_iff in Sd as [Sg Sd]. apply Forall_cons_iff in Wq as [Wq Wqs]. inversion Q as [|? ? ? ? [Uq Q1] Q2]; subst.
  assert (SK : ssim (orel (tdrel (R := R)))
     (r <- try_divisors O t ds qs ;; Ok (match r with None => None | Some (qs0, a, g') => Some (q :: qs0, a, g') end))
     (r <- try_divisors O t' ds' qs' ;; Ok (match r with None => None | Some (qs0, a, g') => Some (q' :: qs0, a, g') end))).
  { eapply ssim_bind; [apply IH; assumption|]. intros r r' _ Hr.
    destruct r as [[[a b] c]|], r' as [[[a' b'] c']|]; cbn in *; try contradiction; [|exact I].
    destruct Hr as [H1 [H2 H3]]. cbn in *. repeat split; cbn; try assumption; try constructor; try assumption; apply H2. }
  eapply ssim_bind; [apply leading_ssim; exact Hg|]. intros o o' Eo Ho.
  pose proof (leading_term_ok ZS OS g Wg) as HL. rewrite Eo in HL. cbn [safe] in HL.
  destruct o as [k|], o' as [k'|]; cbn in Ho; try contradiction; [|exact SK]. destruct HL as (Ik & Wk & Lk & Ck).
  pose proof (sg_unit g k Sg Ik) as Uk.
  eapply ssim_bind; [apply ssim_rsim; [apply (term_try_div_rsim X); [exact Rt|exact Ho]|apply try_div_units; assumption]|]. intros d d' Ed Hd.
  destruct d as [a|], d' as [a'|]; cbn in Hd; try contradiction; [|exact SK].
  pose proof (term_try_div_ok ZS t k Wt Wk) as HT. rewrite Ed in HT. cbn [safe] in HT. destruct HT as (Wa & Em & _).
  eapply ssim_bind; [eapply ssim_ok; [apply (poly_add_term_rsim X); [exact Hq|exact Hd]|]|].
  - apply add_fresh; [exact (try_div_unit t k a Ut Uk Ed)|]. intros u Iu E. pose proof (Q1 u (tm k) (tm t) Iu Lk Nt) as L.
    rewrite E, mmul_comm, <- Em in L. exact (lt_irrefl lt laws _ L).
  - intros p p' _ Hp. apply ssim_Ok. cbn. repeat split; cbn; try assumption; try constructor; try assumption; apply Hd.
Qed.
Lemma qinv_step f f' ds qs i q q' g t l a : Forall clean qs -> clean f -> clean f' -> qinv f ds qs -> In t f -> LM (val f) (tm t) ->
  nth_error ds i = Some g -> nth_error qs i = Some q -> clean q' -> peq (val q') (padd (val q) (it ZS a)) -> twf ZS a -> unit a -> LM (val g) l -> tm t = mmul (tm a) l ->
  (forall m, coeff (val f') m <> k0 -> lt m (tm t)) -> qinv f' ds (list_set qs i q').
Proof.
  intros Wqs Wf Wf' Q It Lt Eg Eq Wq' Pq Wa Ua Lg Em Low.
  assert (Nt : coeff (val f) (tm t) <> k0) by apply Lt.
  assert (Q' : qinv f' ds qs).
  { apply (qinv_mono f); [|exact Q]. intros m N. exists (tm t). split; [exact Nt|]. right. apply Low. exact N. }
  unfold qinv in *. apply F2_set; [exact Q'|]. intros g0 Eg0. rewrite Eg in Eg0. injection Eg0 as <-.
  assert (Wq : clean q) by (rewrite Forall_forall in Wqs; apply Wqs; eapply nth_error_In; exact Eq).
  destruct (F2_nth _ _ _ i g q Q Eg Eq) as [Uq Qq]. destruct (F2_nth _ _ _ i g q Q' Eg Eq) as [_ Qq'].
  assert (Fresh : coeff (val q) (tm a) = k0).
  { destruct (kdec (coeff (val q) (tm a)) k0) as [Z|N]; [exact Z|]. exfalso. apply (pwf_support ZS q _ Wq) in N as (u & Iu & Eu).
    pose proof (Qq u l (tm t) Iu Lg Nt) as L. rewrite Eu, <- Em in L. exact (lt_irrefl lt laws _ L). }
  assert (Cases : forall u, In u q' -> (tm u = tm a /\ (coef u : Z) = coef a) \/ exists v, In v q /\ tm v = tm u /\ (coef v : Z) = coef u).
  { intros u Iu. pose proof (pwf_coeff ZS q' u Wq' Iu) as C. rewrite Pq, coeff_add in C. unfold it in C. rewrite coeff_pterm in C.
    destruct (mono_dec (tm a) (tm u)) as [E|NE].
    - left. split; [symmetry; exact E|]. rewrite <- E, Fresh in C. apply den_coef. rewrite <- C. apply Qcplus_0_l.
    - right. assert (C2 : coeff (val q) (tm u) = den ZS (coef u)) by (rewrite <- C; symmetry; apply Qcplus_0_r).
      assert (N : coeff (val q) (tm u) <> k0) by (rewrite C2; apply (pwf_in ZS q' u Wq' Iu)).
      apply (pwf_support ZS q _ Wq) in N as (v & Iv & Ev). exists v. split; [exact Iv|]. split; [exact Ev|]. apply den_coef. rewrite <- C2, <- Ev. symmetry. apply pwf_coeff; assumption. }
  split.
  - apply Forall_forall. intros u Iu. unfold unit. destruct (Cases u Iu) as [[_ ->]|(v & Iv & _ & <-)]; [exact Ua|]. rewrite Forall_forall in Uq. apply Uq. exact Iv.
  - intros u l' m Iu Ll N. destruct (Cases u Iu) as [[-> _]|(v & Iv & <- & _)].
    + rewrite (is_lm_unique lt laws _ _ _ Ll Lg), <- Em. apply Low. exact N.
    + apply Qq'; assumption.
Qed.

(** ** the division *)
Notation good := (fun p : poly Zi => clean p /\ sg p).
Definition dgood (x : poly Zi * list (poly Zi)) (x' : poly F * list (poly F)) : Prop :=
  drel (R := R) x x' /\ sg (fst x) /\ Forall (Forall unit) (snd x).
Lemma qinv_units f ds qs : qinv f ds qs -> Forall (Forall unit) qs.
Proof. induction 1 as [|g q ds qs [U _] _ IH]; constructor; assumption. Qed.
Lemma divide_loop_ssim ds ds' : Forall2 prel ds ds' -> Forall clean ds -> Forall sg ds ->
  forall n f f' qs qs' rem rem', prel f f' -> Forall2 prel qs qs' -> prel rem rem' ->
  clean f -> clean rem -> Forall clean qs -> sg (f ++ rem) -> qinv f ds qs ->
  ssim dgood (divide_loop Debug O n f ds qs rem) (divide_loop Debug O n f' ds' qs' rem').
Proof.
  intros Hd Wd Sd. induction n as [|n IH]; intros f f' qs qs' rem rem' Hf Hq Hr Wf Wr Wq S Q; cbn [divide_loop].
  - eapply ssim_bind; [apply leading_ssim; exact Hf|]. intros o o' Eo Ho.
    pose proof (leading_term_ok ZS OS f Wf) as HL. rewrite Eo in HL. cbn [safe] in HL.
    destruct o, o'; cbn in Ho; try contradiction; [exact I|]. subst f. split; [split; assumption|]. split; [exact S|exact (qinv_units _ _ _ Q)].
  - eapply ssim_bind; [apply leading_ssim; exact Hf|]. intros o o' Eo Ho.
    pose proof (leading_term_ok ZS OS f Wf) as HL. rewrite Eo in HL. cbn [safe] in HL.
    destruct o as [t|], o' as [t'|]; cbn in Ho; try contradiction.
    2:{ subst f. split; [split; assumption|]. split; [exact S|exact (qinv_units _ _ _ Q)]. }
    destruct HL as (It & Wt & Lt & Ct). pose proof (sg_unit f t (sg_app_l _ _ S) It) as Ut.
    eapply ssim_bind; [apply (try_divisors_ssim f t t' Wt Ut Ho (proj1 Lt)); assumption|]. intros r r' Er Hrr.
    assert (Lq : length qs = length ds) by (symmetry; exact (Forall2_length Q)).
    pose proof (try_divisors_ok ZS OS t Wt ds qs Wd Wq Lq) as HD. rewrite Er in HD. cbn [safe] in HD.
    destruct r as [[[quots a] g]|], r' as [[[quots' a'] g']|]; cbn in Hrr; try contradiction.
    + destruct Hrr as [H1 [H2 H3]]. cbn in H1, H2, H3.
      destruct HD as (i & q & q' & l & Hg & Hqi & -> & Wq' & Pq & Wa & Lg & Em & Ea & _).
      assert (Ig : In g ds) by (eapply nth_error_In; exact Hg).
      assert (Wg : clean g) by (rewrite Forall_forall in Wd; apply Wd; exact Ig). assert (Sg : sg g) by (rewrite Forall_forall in Sd; apply Sd; exact Ig).
      assert (Ua : unit a) by (apply (step f g t l a [] Wf (sg_app_l _ _ S) Wg Sg It Wa Lg Em Ea)).
      eapply ssim_bind; [apply mul_poly_ssim; [exact H2|exact H3|exact Ua|apply sg_Forall; exact Sg]|]. intros ag ag' Eag Hag.
      destruct (step f g t l a ag Wf (sg_app_l _ _ S) Wg Sg It Wa Lg Em Ea) as [_ HS]. destruct (HS Eag) as (f1 & Ef1 & _).
      eapply ssim_bind; [eapply ssim_ok; [apply (poly_sub_rsim X); eassumption|exact Ef1]|]. intros f2 f2' Ef Hf2.
      rewrite Ef1 in Ef. injection Ef as <-.
      pose proof (term_mul_poly_ok ZS a g Wa Wg) as HM. rewrite Eag in HM. cbn [safe] in HM. destruct HM as [Wag Xag].
      pose proof (poly_sub_ok ZS f ag Wf (Forall_twf0 ZS _ (proj1 Wag))) as HS'. rewrite Ef1 in HS'. cbn [safe] in HS'. destruct HS' as [Wf' Xf].
      apply IH; auto.
      * apply Forall_list_set; assumption.
      * exact (step_sg f g t l a ag rem f1 Wf S Wg Sg It Wa Lg Em Ea Eag Ef1).
      * eapply (qinv_step f f1 ds qs i q q' g t l a); try eassumption.
        intros m N. rewrite Xf, Xag, Ea, <- Ct in N. eapply (reduce_lm lt laws (val f) (val g) l (tm a) (tm t)); eassumption.
    + eapply ssim_bind; [apply sort_ssim; exact Hf|]. intros fs fs' Es Hfs.
      pose proof (sort_ok ZS OS f (Forall_twf0 ZS _ (proj1 Wf))) as HS. rewrite Es in HS. cbn [safe] in HS. destruct HS as (P & _ & _).
      pose proof (vec_pop_spec fs) as V. apply vec_pop_rel in Hfs.
      destruct (vec_pop fs) as [g [k|]], (vec_pop fs') as [g' [k'|]]; cbn [fst snd orel] in Hfs; destruct Hfs as [Hg Hk]; try contradiction.
      2:{ destruct V as [-> ->]. apply Permutation_sym in P. apply Permutation_nil in P. subst f. destruct It. }
      subst fs. assert (Wp : clean (g ++ [k])) by (apply (pwf_perm ZS f); assumption).
      assert (Ik : In k f) by (apply (Permutation_in _ (Permutation_sym P)); apply in_or_app; right; left; reflexivity).
      pose proof (sg_unit f k (sg_app_l _ _ S) Ik) as Uk.
      assert (Wk : twf ZS k) by (apply (pwf_in ZS f); assumption).
      assert (Wg : clean g).
      { destruct Wp as [A N]. apply Forall_app in A as [A _]. split; [exact A|]. rewrite map_app in N. cbn [map] in N. apply NoDup_remove_1 in N. rewrite app_nil_r in N. exact N. }
      assert (S' : sg (g ++ k :: rem)).
      { apply (sg_perm (f ++ rem)); [|exact S]. change (k :: rem) with ([k] ++ rem). rewrite app_assoc. apply Permutation_app_tail. exact P. }
      assert (HA : exists rem1, poly_add_term rem k = Ok rem1 /\ sg (g ++ rem1)).
      { destruct rem as [|x rem].
        - exists [k]. split; [apply (add_fresh [] k Uk); intros u []|exact S'].
        - assert (Z : g = [] /\ rem = []).
          { apply sg_length in S'. rewrite app_length in S'. cbn [length] in S'. destruct g; [|cbn [length] in S'; lia]. destruct rem; [auto|cbn [length] in S'; lia]. }
          destruct Z as [-> ->]. cbn [app] in *. destruct S' as [Z|[(y & Z & _)|(y & z & Z & Uy & Cz)]]; [discriminate Z|discriminate Z|]. injection Z as <- <-.
          destruct (mdeg_eqb (tdeg x) (tdeg k)) eqn:Eq.
          + exists []. split; [|left; reflexivity]. destruct x as [cx dx], k as [ck dk]. cbn [coef tdeg] in *. apply mdeg_eqb_eq in Eq. subst dx. unfold unit in *. cbn [coef] in *.
            unfold poly_add_term. destruct Uy as [-> | ->]; cbn in Cz; subst cx; degs; reflexivity.
          + exists [x; k]. split.
            * apply (add_fresh [x] k Uk). intros u [<-|[]] D. rewrite D, mdeg_eqb_refl in Eq. discriminate Eq.
            * right; right. exists x, k. split; [reflexivity|]. unfold unit in *. rewrite Cz. split; lia. }
      destruct HA as (rem1 & ER & SR).
      eapply ssim_bind; [eapply ssim_ok; [apply (poly_add_term_rsim X); eassumption|exact ER]|]. intros rem2 rem2' Er2 Hr2. rewrite ER in Er2. injection Er2 as <-.
      pose proof (poly_add_term_ok ZS rem k Wr (twf_twf0 ZS k Wk)) as HA. rewrite ER in HA. cbn [safe] in HA. destruct HA as [Wr' _].
      apply IH; auto. apply (qinv_mono f); [|exact Q]. intros m N. exists m. split; [|left; reflexivity].
      apply (pwf_support ZS g m Wg) in N as (u & Iu & Eu). apply (pwf_support ZS f m Wf). exists u. split; [|exact Eu].
      apply (Permutation_in _ (Permutation_sym P)). apply in_or_app. left. exact Iu.
Qed.
Lemma divide_ssim n f f' ds ds' : prel f f' -> Forall2 prel ds ds' -> good f -> Forall clean ds -> Forall sg ds ->
  ssim dgood (divide Debug O n f ds) (divide Debug O n f' ds').
Proof.
  intros Hf Hd [Wf Sf] Wd Sd. unfold divide. rewrite (plen Hd). apply divide_loop_ssim; try assumption.
  - apply repeat_rel. constructor.
  - constructor.
  - apply pwf_nil.
  - apply Forall_forall. intros x I. apply repeat_spec in I. subst x. apply pwf_nil.
  - rewrite app_nil_r. exact Sf.
  - rewrite <- (plen Hd). clear. induction ds as [|g ds IH]; cbn [length repeat]; constructor; [|exact IH]. split; [constructor|intros u l m []].
Qed.
(** ** S-polynomials and Groebner bases *)
Definition pg (p : poly Zi) (p' : poly F) : Prop := prel p p' /\ clean p /\ sg p.
Lemma pgs_prel gs gs' : Forall2 pg gs gs' -> Forall2 prel gs gs'.
Proof. apply Forall2_impl. intros a a' H. apply H. Qed.
Lemma pgs_clean gs gs' : Forall2 pg gs gs' -> Forall clean gs.
Proof. induction 1 as [|a a' l l' H _ IH]; constructor; [apply H|exact IH]. Qed.
Lemma pgs_sg gs gs' : Forall2 pg gs gs' -> Forall sg gs.
Proof. induction 1 as [|a a' l l' H _ IH]; constructor; [apply H|exact IH]. Qed.
Definition dpg (x : poly Zi * list (poly Zi)) (x' : poly F * list (poly F)) : Prop :=
  pg (fst x) (fst x') /\ Forall2 prel (snd x) (snd x') /\ Forall clean (snd x) /\ Forall (Forall unit) (snd x).
Lemma ssim_mono {A A' : Type} (P Q : A -> A' -> Prop) x y : (forall a a', x = Ok a -> P a a' -> Q a a') -> ssim P x y -> ssim Q x y.
Proof. intros H. unfold ssim. destruct x, y; auto. Qed.
Lemma divide_pg n f f' gs gs' : pg f f' -> Forall2 pg gs gs' -> ssim dpg (divide Debug O n f gs) (divide Debug O n f' gs').
Proof.
  intros (Rf & Wf & Sf) H. pose proof (pgs_clean _ _ H) as Wg.
  eapply ssim_mono; [|apply divide_ssim; [exact Rf|exact (pgs_prel _ _ H)|split; assumption|exact Wg|exact (pgs_sg _ _ H)]].
  intros [r qs] [r' qs'] E ((R1 & R2) & S & U). cbn [fst snd] in *. destruct (divide_run ZS OS n f gs r qs Wf Wg E) as (Wr & Wqs & _).
  split; [split; [exact R1|split; assumption]|]. split; [exact R2|]. split; assumption.
Qed.
Lemma spoly_pg f f' g g' : pg f f' -> pg g g' -> ssim (orel pg) (try_reduce Debug O f g) (try_reduce Debug O f' g').
Proof.
  intros (Rf & Wf & Sf) (Rg & Wg & Sg).
  assert (C : forall o o', try_reduce Debug O f g = Ok o -> orel (fun p p' => prel p p' /\ sg p) o o' -> orel pg o o').
  { intros [s|] [s'|] E K; cbn in *; try contradiction; [|exact I]. destruct K as [K1 K2]. split; [exact K1|]. split; [|exact K2].
    exact (proj1 (C37_s_polynomial ZS OS f g s Wf Wg E)). }
  eapply ssim_mono; [exact C|]. clear C. unfold try_reduce.
  eapply ssim_bind; [apply leading_ssim; exact Rf|]. intros o o' Eo Ho. pose proof (leading_term_ok ZS OS f Wf) as HL. rewrite Eo in HL. cbn [safe] in HL.
  destruct o as [tf|], o' as [tf'|]; cbn in Ho; try contradiction; [|exact I]. destruct HL as (If & Wtf & _ & _). clear Eo.
  eapply ssim_bind; [apply leading_ssim; exact Rg|]. intros o o' Eo Ho2. pose proof (leading_term_ok ZS OS g Wg) as HL. rewrite Eo in HL. cbn [safe] in HL.
  destruct o as [tg|], o' as [tg'|]; cbn in Ho2; try contradiction; [|exact I]. destruct HL as (Ig & Wtg & _ & _). clear Eo.
  pose proof (sg_unit f tf Sf If) as Uf. pose proof (sg_unit g tg Sg Ig) as Ug.
  pose proof (monic_lcm_rel X _ _ _ _ Ho Ho2) as L. cbn zeta. destruct (monic_lcm_ok ZS tf tg Wtf Wtg) as (Wl & Cl & El).
  set (lcm := monic_lcm tf tg) in *. assert (Ul : unit lcm) by (left; exact Cl).
  assert (Inv : forall a t : term Zi, unit t -> den ZS (coef a) = kdiv (den ZS (coef lcm)) (den ZS (coef t)) -> (coef a : Z) * coef t = 1).
  { intros a t Ut E. apply intq_inj. rewrite <- intq_mul. change (intq (coef a)) with (den ZS (coef a)). rewrite E, Cl. cbn [den zspec kdiv QcField f1 zimpl].
    change (intq 1) with 1%Qc. field. change 0%Qc with (intq 0). intros D. apply intq_inj in D. unfold unit in Ut. lia. }
  eapply ssim_bind; [apply ssim_rsim; [apply (term_try_div_rsim X); [exact L|exact Ho]|apply try_div_units; assumption]|]. intros o o' Eo H1.
  pose proof (term_try_div_ok ZS lcm tf Wl Wtf) as HT. rewrite Eo in HT. cbn [safe] in HT.
  destruct o as [a|], o' as [a'|]; cbn in H1; try contradiction; [|exact I]. destruct HT as (Wa & Ea & Da). pose proof (try_div_unit _ _ _ Ul Uf Eo) as Ua. clear Eo.
  eapply ssim_bind; [apply mul_poly_ssim; [exact H1|exact Rf|exact Ua|apply sg_Forall; exact Sf]|]. intros af af' Eaf Haf.
  eapply ssim_bind; [apply ssim_rsim; [apply (term_try_div_rsim X); [exact L|exact Ho2]|apply try_div_units; assumption]|]. intros o o' Eo H2.
  pose proof (term_try_div_ok ZS lcm tg Wl Wtg) as HT. rewrite Eo in HT. cbn [safe] in HT.
  destruct o as [b|], o' as [b'|]; cbn in H2; try contradiction; [|exact I]. destruct HT as (Wb & Eb & Db). pose proof (try_div_unit _ _ _ Ul Ug Eo) as Ub. clear Eo.
  eapply ssim_bind; [apply mul_poly_ssim; [exact H2|exact Rg|exact Ub|apply sg_Forall; exact Sg]|]. intros bg bg' Ebg Hbg.
  destruct (mul_sg a f af Ua Wa Wf Sf Eaf) as [Saf Ma]. destruct (mul_sg b g bg Ub Wb Wg Sg Ebg) as [Sbg Mb].
  destruct (Ma tf If) as (x & Ix & Cx & Tx). destruct (Mb tg Ig) as (y & Iy & Cy & Ty).
  pose proof (term_mul_poly_ok ZS a f Wa Wf) as HM. rewrite Eaf in HM. cbn [safe] in HM. destruct HM as [Waf _].
  pose proof (term_mul_poly_ok ZS b g Wb Wg) as HM. rewrite Ebg in HM. cbn [safe] in HM. destruct HM as [Wbg _].
  destruct (sub_heads af bg x y) as (s & Es & Ds).
  - apply sg_heads; assumption.
  - apply sg_heads; assumption.
  - apply tdeg_ext; [exact (pwf_in ZS bg y Wbg Iy)|exact (pwf_in ZS af x Waf Ix)|]. rewrite Tx, Ty, <- Ea, <- Eb. reflexivity.
  - rewrite Cx, Cy, (Z.mul_comm (coef tf : Z)), (Z.mul_comm (coef tg : Z)), (Inv a tf Uf Da), (Inv b tg Ug Db). reflexivity.
  - eapply ssim_bind; [eapply ssim_ok; [apply (poly_sub_rsim X); eassumption|exact Es]|]. intros s1 s1' E1 Hs. rewrite Es in E1. injection E1 as <-.
    split; [exact Hs|]. destruct Ds as [->|[(v & -> & Uv & _)|(v & w & -> & Uv & Cw & _)]]; [left; reflexivity|right; left; eauto|right; right; eauto].
Qed.
Lemma coef_ssim p p' : prel p p' -> ssim (orel R) (leading_coef O p) (leading_coef O p').
Proof.
  intros H. unfold leading_coef. eapply ssim_bind; [apply leading_ssim; exact H|].
  intros o o' _ Ho. destruct o as [t|], o' as [t'|]; cbn in *; try contradiction; [apply Ho|exact I].
Qed.
Lemma scal_pg r r' c c' : pg r r' -> leading_coef O r = Ok (Some c) -> R c c' -> ssim pg (poly_div_scalar Debug r c) (poly_div_scalar Debug r' c').
Proof.
  intros (Rr & Wr & Sr) Ec Rc.
  assert (Uc : (c : Z) = 1 \/ (c : Z) = -1).
  { unfold leading_coef in Ec. apply bind_Ok in Ec as (o & Eo & Ec). destruct o as [t|]; [|discriminate Ec]. injection Ec as <-.
    pose proof (leading_term_ok ZS OS r Wr) as HL. rewrite Eo in HL. exact (sg_unit r t Sr (proj1 HL)). }
  assert (Nc : @feqb Zi c f0 = false) by (destruct Uc as [-> | ->]; reflexivity).
  assert (Dc : den ZS c <> k0) by (intros D; change (@k0 QcField) with (intq 0) in D; apply intq_inj in D; destruct Uc; congruence).
  assert (Cl : forall s s', poly_div_scalar Debug r c = Ok s -> prel s s' /\ sg s -> pg s s').
  { intros s s' E [K1 K2]. split; [exact K1|]. split; [|exact K2].
    pose proof (poly_div_scalar_ok ZS r c (Forall_twf0 ZS _ (proj1 Wr)) I Dc) as H. rewrite E in H. cbn [safe] in H. apply H. exact Wr. }
  eapply ssim_mono; [exact Cl|]. unfold poly_div_scalar.
  assert (Ei : @finv Zi c = Ok (c : Z)) by (destruct Uc as [-> | ->]; reflexivity).
  eapply ssim_bind; [eapply ssim_ok; [apply (s_inv _ _ _ X); eassumption|exact Ei]|]. intros i i' E Ri. rewrite Ei in E. injection E as <-.
  unfold poly_scale. set (k := @term_constant Zi c). assert (Uk : unit k) by exact Uc.
  assert (Wk : twf ZS k). { split; [exact I|]. split; [exact Dc|]. apply mwf_nil. }
  eapply ssim_mono; [|apply (mul_poly_ssim k r (term_constant i') r'); [split; [exact Ri|reflexivity]|exact Rr|exact Uk|apply sg_Forall; exact Sr]].
  intros s s' E Hs. split; [exact Hs|]. apply (mul_sg k r s Uk Wk Wr Sr E).
Qed.
Lemma criterion_loop_ssim n gs gs' ps : Forall2 pg gs gs' -> ssim eq (criterion_loop Debug O n gs ps) (criterion_loop Debug O n gs' ps).
Proof.
  intros H. induction ps as [|[i j] ps IH]; cbn [criterion_loop]; [reflexivity|].
  eapply ssim_bind; [apply vget_ssim; exact H|]. intros a a' _ Ha. eapply ssim_bind; [apply vget_ssim; exact H|]. intros b b' _ Hb.
  eapply ssim_bind; [apply spoly_pg; eassumption|]. intros o o' _ Ho. destruct o as [s|], o' as [s'|]; cbn in Ho; try contradiction; [|reflexivity].
  eapply ssim_bind; [apply divide_pg; eassumption|]. intros [r q] [r' q'] _ ((Hr & _) & _). cbn in Hr.
  rewrite (poly_is_zero_rel _ _ Hr). destruct (poly_is_zero r'); [exact IH|reflexivity].
Qed.
Lemma criterion_ssim n gs gs' : Forall2 pg gs gs' -> ssim eq (buchberger_criterion Debug O n gs) (buchberger_criterion Debug O n gs').
Proof. intros H. unfold buchberger_criterion. rewrite (Forall2_length H). apply criterion_loop_ssim. exact H. Qed.
Lemma extend_inner_ssim n gs gs' i js : Forall2 pg gs gs' -> ssim (orel pg) (extend_inner Debug O n gs i js) (extend_inner Debug O n gs' i js).
Proof.
  intros H. induction js as [|j js IH]; cbn [extend_inner]; [exact I|].
  eapply ssim_bind; [apply vget_ssim; exact H|]. intros a a' _ Ha. eapply ssim_bind; [apply vget_ssim; exact H|]. intros b b' _ Hb.
  eapply ssim_bind; [apply spoly_pg; eassumption|]. intros o o' _ Ho.
  eapply ssim_bind; [apply unwrap_ssim; exact Ho|]. intros s s' _ Hs.
  eapply ssim_bind; [apply divide_pg; eassumption|]. intros [r q] [r' q'] _ [Hr _]. cbn in Hr.
  eapply ssim_bind; [apply coef_ssim; apply Hr|]. intros c c' EC Hc. destruct c as [c|], c' as [c'|]; cbn in Hc; try contradiction; [|exact IH].
  eapply ssim_bind; [apply scal_pg; eassumption|]. intros p p' _ Hp. exact Hp.
Qed.
Lemma extend_loop_ssim d n : forall gs gs' i, Forall2 pg gs gs' -> ssim (Forall2 pg) (extend_loop Debug O d n gs i) (extend_loop Debug O d n gs' i).
Proof.
  induction n as [|n IH]; intros gs gs' i H; cbn [extend_loop]; rewrite (Forall2_length H); (destruct (_ <? _)%nat; [|exact H]); [exact I|].
  eapply ssim_bind; [apply extend_inner_ssim; exact H|]. intros o o' _ Ho. destruct o as [r|], o' as [r'|]; cbn in Ho; try contradiction; apply IH.
  - apply Forall2_app; auto.
  - exact H.
Qed.
Lemma minimize_find_ssim gs gs' ps : Forall2 pg gs gs' -> ssim eq (minimize_find O gs ps) (minimize_find O gs' ps).
Proof.
  intros H. induction ps as [|[i j] ps IH]; cbn [minimize_find]; [reflexivity|].
  eapply ssim_bind; [apply vget_ssim; exact H|]. intros a a' _ Ha.
  eapply ssim_bind; [apply leading_ssim; apply Ha|]. intros l l' _ Hl. eapply ssim_bind; [apply unwrap_ssim; exact Hl|]. intros t t' _ Ht.
  eapply ssim_bind; [apply vget_ssim; exact H|]. intros b b' _ Hb.
  eapply ssim_bind; [apply leading_ssim; apply Hb|]. intros k k' _ Hk. eapply ssim_bind; [apply unwrap_ssim; exact Hk|]. intros u u' _ Hu.
  rewrite (term_divides_rel X _ _ _ _ Ht Hu). destruct (term_divides t' u'); [reflexivity|exact IH].
Qed.
Lemma minimize_loop_ssim n : forall gs gs', Forall2 pg gs gs' -> ssim (Forall2 pg) (minimize_loop O n gs) (minimize_loop O n gs').
Proof.
  induction n as [|n IH]; intros gs gs' H; cbn [minimize_loop]; [exact I|]. rewrite (Forall2_length H).
  eapply ssim_bind; [apply minimize_find_ssim; exact H|]. intros o o' _ <-. destruct o as [i|]; [|exact H]. apply IH, list_remove_rel, H.
Qed.
Lemma any_term_divisible_ssim g g' ts ts' : prel g g' -> prel ts ts' -> ssim eq (any_term_divisible O g ts) (any_term_divisible O g' ts').
Proof.
  intros H G. induction G as [|t t' ts ts' Ht _ IH]; cbn [any_term_divisible]; [reflexivity|].
  eapply ssim_bind; [apply leading_ssim; exact H|]. intros l l' _ Hl. eapply ssim_bind; [apply unwrap_ssim; exact Hl|]. intros u u' _ Hu.
  rewrite (term_divides_rel X _ _ _ _ Hu Ht). destruct (term_divides u' t'); [reflexivity|exact IH].
Qed.
Lemma reduce_find_ssim gs gs' ps : Forall2 pg gs gs' -> ssim eq (reduce_find O gs ps) (reduce_find O gs' ps).
Proof.
  intros H. pose proof (pgs_prel _ _ H) as H'. induction ps as [|[i j] ps IH]; cbn [reduce_find]; [reflexivity|].
  eapply ssim_bind; [apply vget_ssim; exact H'|]. intros a a' _ Ha.
  eapply (ssim_bind prel). { destruct Ha; [constructor|]. apply vget_ssim. exact H'. }
  intros b b' _ Hb. eapply ssim_bind; [apply any_term_divisible_ssim; eassumption|]. intros c c' _ <-. destruct c; [reflexivity|exact IH].
Qed.
Lemma reduce_loop_ssim d n : forall gs gs', Forall2 pg gs gs' -> ssim (Forall2 pg) (reduce_loop Debug O d n gs) (reduce_loop Debug O d n gs').
Proof.
  induction n as [|n IH]; intros gs gs' H; cbn [reduce_loop]; [exact I|]. rewrite (Forall2_length H).
  eapply ssim_bind; [apply reduce_find_ssim; exact H|]. intros o o' _ <-. destruct o as [i|]; [|exact H].
  eapply ssim_bind; [apply vget_ssim; exact H|]. intros g g' _ Hg. cbn zeta.
  eapply ssim_bind; [apply divide_pg; [exact Hg|apply list_remove_rel; exact H]|]. intros [r q] [r' q'] _ [Hr _]. cbn in Hr.
  apply IH. apply Forall2_app; [apply list_remove_rel; exact H|auto].
Qed.
Lemma algorithm_ssim n gs gs' : Forall2 pg gs gs' -> ssim (Forall2 pg) (buchberger_algorithm Debug O n gs) (buchberger_algorithm Debug O n gs').
Proof.
  intros H. unfold buchberger_algorithm. eapply ssim_bind; [apply extend_loop_ssim; exact H|]. intros g g' _ Hg.
  eapply ssim_bind; [apply minimize_loop_ssim; exact Hg|]. intros h h' _ Hh. apply reduce_loop_ssim. exact Hh.
Qed.
End Run.
